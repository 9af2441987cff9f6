(** The elimination behind normalize() and setVals(): success gives the exact inverse. *)
From Coq Require Import Reals Lra Lia List Bool Psatz ZArith.
From Flocq Require Import Core.Zaux Core.Raux.
From Verif Require Import Base Scalar ConstModel VecModel RotModel RSpec RLib VecSpec RotSpec MatLib.
Import ListNotations.
Open Scope R_scope.

Ltac tom :=
  repeat match goal with
         | |- context [@mget R ?I] => change (@mget R I) with rc
         | |- context [@elem R ?I] => change (@elem R I) with ent
         end;
  unfold kron, n0, n1, n2; cbn [nadd nsub nmul ndiv nopp nabs nsqrt nofZ nltb nleb neqb nmaxval nminval nsin ncos neps Rnum].
Ltac cases :=
  repeat match goal with
         | |- context [Nat.eqb ?a ?b] => destruct (Nat.eqb_spec a b); try lia
         | |- context [Nat.ltb ?a ?b] => destruct (Nat.ltb_spec a b); try lia
         end.

Lemma mapply_eq n A B x y i : (forall j, (j < n)%nat -> A i j * x j = B i j * y j) -> mapply n A x i = mapply n B y i.
Proof. intros H. apply Rsum_ext. auto. Qed.

Section Inv.
Context (eps : Epsilon).
Variable n : nat.

Lemma minval_pos (m : mat R) i : 0 < minval n m i.
Proof.
  unfold minval. tom. destruct (Rlt_bool_spec (nsum n (fun j => rc m j i * rc m j i) / (bpow radix2 1024 - bpow radix2 971)) (bpow radix2 (-1022))) as [E|E].
  - apply bpow_gt_0.
  - eapply Rlt_le_trans; [apply (bpow_gt_0 radix2 (-1022))|exact E].
Qed.
Lemma minval_def (m : mat R) i : minval n m i =
  Rmax (Rsum n (fun j => rc m j i * rc m j i) / (bpow radix2 1024 - bpow radix2 971)) (bpow radix2 (-1022)).
Proof.
  unfold minval. rewrite nsum_Rsum. tom.
  destruct (Rlt_bool_spec (Rsum n (fun j => rc m j i * rc m j i) / (bpow radix2 1024 - bpow radix2 971)) (bpow radix2 (-1022))) as [E|E].
  - rewrite Rmax_right; lra.
  - rewrite Rmax_left; lra.
Qed.
Lemma find_row_some m i mv j : @find_row R (Rnum eps) n m i mv = Some j -> (i < j < n)%nat /\ mv <= rc m j i * rc m j i.
Proof.
  unfold find_row. intros H. apply find_some in H as [H1 H2]. apply in_seq in H1. split; [lia|].
  apply Rleb_iff. exact H2.
Qed.
Lemma find_row_none m i mv j : @find_row R (Rnum eps) n m i mv = None -> (i < j < n)%nat -> rc m j i * rc m j i < mv.
Proof.
  unfold find_row. intros H Hj. apply Rleb_false. apply (find_none _ _ H). apply in_seq. lia.
Qed.

(** The matrix the algorithm has in mind before step i: the elements below the
    diagonal in the columns already treated count as zero. *)
Definition eff (i : nat) (m : nat -> nat -> R) (r c : nat) : R :=
  if Nat.ltb c i && Nat.ltb c r then 0 else m r c.
(** the linear system m x = o y *)
Definition sys (A B : nat -> nat -> R) (x y : nat -> R) : Prop :=
  forall r, (r < n)%nat -> mapply n A x r = mapply n B y r.

(** row operations keep the solutions *)
Lemma sys_row_add A B A' B' i j k x y : (i < n)%nat -> (j < n)%nat -> i <> j ->
  (forall r c, (r < n)%nat -> (c < n)%nat -> A' r c = if Nat.eqb r i then A r c + k * A j c else A r c) ->
  (forall r c, (r < n)%nat -> (c < n)%nat -> B' r c = if Nat.eqb r i then B r c + k * B j c else B r c) ->
  sys A B x y <-> sys A' B' x y.
Proof.
  intros Hi Hj Ne HA HB.
  assert (EA : forall r, (r < n)%nat -> mapply n A' x r = if Nat.eqb r i then mapply n A x r + k * mapply n A x j else mapply n A x r).
  { intros r Hr. unfold mapply. rewrite <- Rsum_scal_l, <- Rsum_plus. destruct (Nat.eqb r i) eqn:E; apply Rsum_ext; intros c Hc; rewrite HA, E by auto; ring. }
  assert (EB : forall r, (r < n)%nat -> mapply n B' y r = if Nat.eqb r i then mapply n B y r + k * mapply n B y j else mapply n B y r).
  { intros r Hr. unfold mapply. rewrite <- Rsum_scal_l, <- Rsum_plus. destruct (Nat.eqb r i) eqn:E; apply Rsum_ext; intros c Hc; rewrite HB, E by auto; ring. }
  split; intros H r Hr.
  - rewrite EA, EB by auto. rewrite !H by auto. reflexivity.
  - pose proof (H r Hr) as H1. pose proof (H j Hj) as H2. rewrite EA, EB in H1 by auto. rewrite EA, EB in H2 by auto.
    destruct (Nat.eqb_spec r i); auto. subst. destruct (Nat.eqb_spec j i); [congruence|]. rewrite H2 in H1. lra.
Qed.
Lemma sys_row_scale A B A' B' i k x y : (i < n)%nat -> k <> 0 ->
  (forall r c, (r < n)%nat -> (c < n)%nat -> A r c = if Nat.eqb r i then k * A' r c else A' r c) ->
  (forall r c, (r < n)%nat -> (c < n)%nat -> B r c = if Nat.eqb r i then k * B' r c else B' r c) ->
  sys A B x y <-> sys A' B' x y.
Proof.
  intros Hi Hk HA HB.
  assert (EA : forall r, (r < n)%nat -> mapply n A x r = if Nat.eqb r i then k * mapply n A' x r else mapply n A' x r).
  { intros r Hr. unfold mapply. rewrite <- Rsum_scal_l. destruct (Nat.eqb r i) eqn:E; apply Rsum_ext; intros c Hc; rewrite HA, E by auto; ring. }
  assert (EB : forall r, (r < n)%nat -> mapply n B y r = if Nat.eqb r i then k * mapply n B' y r else mapply n B' y r).
  { intros r Hr. unfold mapply. rewrite <- Rsum_scal_l. destruct (Nat.eqb r i) eqn:E; apply Rsum_ext; intros c Hc; rewrite HB, E by auto; ring. }
  split; intros H r Hr; specialize (H r Hr); rewrite EA, EB in * by auto; destruct (Nat.eqb r i).
  - apply Rmult_eq_reg_l in H; auto.
  - auto.
  - rewrite H; auto.
  - auto.
Qed.
(** subtract multiples of row i from a set of other rows *)
Lemma sys_rows_sub A B A' B' i (p : nat -> bool) (f : nat -> R) x y : (i < n)%nat -> p i = false ->
  (forall r c, (r < n)%nat -> (c < n)%nat -> A' r c = if p r then A r c - f r * A i c else A r c) ->
  (forall r c, (r < n)%nat -> (c < n)%nat -> B' r c = if p r then B r c - f r * B i c else B r c) ->
  sys A B x y <-> sys A' B' x y.
Proof.
  intros Hi Pi HA HB.
  assert (EA : forall r, (r < n)%nat -> mapply n A' x r = if p r then mapply n A x r - f r * mapply n A x i else mapply n A x r).
  { intros r Hr. unfold mapply. rewrite <- Rsum_scal_l, <- Rsum_minus. destruct (p r) eqn:E; apply Rsum_ext; intros c Hc; rewrite HA, E by auto; ring. }
  assert (EB : forall r, (r < n)%nat -> mapply n B' y r = if p r then mapply n B y r - f r * mapply n B y i else mapply n B y r).
  { intros r Hr. unfold mapply. rewrite <- Rsum_scal_l, <- Rsum_minus. destruct (p r) eqn:E; apply Rsum_ext; intros c Hc; rewrite HB, E by auto; ring. }
  split; intros H r Hr.
  - rewrite EA, EB by auto. rewrite !H by auto. reflexivity.
  - pose proof (H r Hr) as H1. pose proof (H i Hi) as H2. rewrite EA, EB in H1 by auto. rewrite EA, EB in H2 by auto.
    rewrite Pi in H2. destruct (p r); auto. rewrite H2 in H1. lra.
Qed.

Lemma pivot_sys i inn out inn' out' : (i < n)%nat -> @inv_pivot R (Rnum eps) n (inn, out) i = Some (inn', out') ->
  rc inn' i i <> 0 /\ (forall r, (r < i)%nat -> rc inn' r r = rc inn r r) /\
  (forall x y, sys (eff i (rc inn)) (rc out) x y <-> sys (eff i (rc inn')) (rc out') x y).
Proof.
  intros Hi. unfold inv_pivot. pose proof (minval_pos inn i) as MP. tom.
  destruct (Rlt_bool_spec (rc inn i i * rc inn i i) (minval n inn i)) as [E|E].
  - destruct (find_row n inn i (minval n inn i)) as [j|] eqn:F; [|discriminate]. intros X; inversion X; subst; clear X.
    apply find_row_some in F as [Hj Hm].
    assert (A : forall m r c, (r < n)%nat -> (c < n)%nat -> rc (add_row n m i j) r c = if Nat.eqb r i then rc m r c + 1 * rc m j c else rc m r c).
    { intros m r c Hr Hc. unfold add_row. rewrite rc_mtab by auto. tom. destruct (Nat.eqb r i); ring. }
    split; [|split].
    + rewrite A by lia. rewrite Nat.eqb_refl. intros Z. nra.
    + intros r Hr. rewrite A by lia. cases. reflexivity.
    + intros x y. apply (sys_row_add _ _ _ _ i j 1); try lia; [|apply A].
      intros r c Hr Hc. unfold eff. rewrite A by auto.
      destruct (Nat.ltb_spec c i); destruct (Nat.ltb_spec c r); destruct (Nat.ltb_spec c j); cases; simpl; ring.
  - intros X; inversion X; subst. split; [|split]; [|auto|tauto]. intros Z. rewrite Z in E. lra.
Qed.

Lemma step_sys i inn out inn' out' : (i < n)%nat ->
  rc inn i i <> 0 -> (forall r, (r < i)%nat -> rc inn r r = 1) ->
  @inv_sub R (Rnum eps) n (@inv_norm R (Rnum eps) n (inn, out) i) i = (inn', out') ->
  (forall r, (r < S i)%nat -> rc inn' r r = 1) /\
  (forall x y, sys (eff i (rc inn)) (rc out) x y <-> sys (eff (S i) (rc inn')) (rc out') x y).
Proof.
  intros Hi Hp Hd. destruct (inv_norm n (inn, out) i) as [a1 o1] eqn:E1. intros E2.
  unfold inv_norm in E1. revert E1. tom. intros E1. injection E1 as Ea1 Eo1.
  unfold inv_sub in E2. revert E2. tom. intros E2. injection E2 as Ea2 Eo2.
  rename inn' into a2. rename out' into o2.
  assert (A1 : forall r c, (r < n)%nat -> (c < n)%nat -> rc a1 r c = if Nat.eqb r i then (if Nat.eqb c i then 1 else if Nat.ltb i c then rc inn r c / rc inn i i else rc inn r c) else rc inn r c).
  { intros. rewrite <- Ea1. rewrite rc_mtab by auto. reflexivity. }
  assert (O1 : forall r c, (r < n)%nat -> (c < n)%nat -> rc o1 r c = if Nat.eqb r i then rc out r c / rc inn i i else rc out r c).
  { intros. rewrite <- Eo1. rewrite rc_mtab by auto. reflexivity. }
  assert (A2 : forall r c, (r < n)%nat -> (c < n)%nat -> rc a2 r c =
     if Nat.ltb i r then (if Nat.eqb c i then 0 else rc a1 r c) - rc a1 i c * rc a1 r i else rc a1 r c).
  { intros. rewrite <- Ea2. rewrite rc_mtab by auto. destruct (Nat.ltb i r); auto. destruct (Req_bool_spec (rc a1 r i) 0) as [Z|Z]; simpl; auto. rewrite Z. ring. }
  assert (O2 : forall r c, (r < n)%nat -> (c < n)%nat -> rc o2 r c = if Nat.ltb i r then rc o1 r c - rc a1 r i * rc o1 i c else rc o1 r c).
  { intros. rewrite <- Eo2. rewrite rc_mtab by auto. destruct (Nat.ltb i r); auto. destruct (Req_bool_spec (rc a1 r i) 0) as [Z|Z]; simpl; try rewrite Z; ring. }
  clear Ea1 Eo1 Ea2 Eo2. split.
  - intros r Hr. rewrite A2 by lia. destruct (Nat.ltb_spec i r); [lia|]. rewrite A1 by lia. destruct (Nat.eqb_spec r i); [reflexivity|apply Hd; lia].
  - intros x y.
    rewrite (sys_row_scale (eff i (rc inn)) (rc out) (eff i (rc a1)) (rc o1) i (rc inn i i) x y); auto.
    + apply (sys_rows_sub _ _ _ _ i (fun r => Nat.ltb i r) (fun r => rc a1 r i)); auto.
      * apply Nat.ltb_irrefl.
      * intros r c Hr Hc. unfold eff. rewrite A2 by auto.
        destruct (Nat.ltb_spec i r).
        -- destruct (Nat.ltb_spec c i); cases; simpl; try ring. subst c. rewrite (A1 i i) by auto. rewrite Nat.eqb_refl. ring.
        -- cases; simpl; ring.
    + intros r c Hr Hc. unfold eff. rewrite A1 by auto. cases; simpl; subst; try ring; field; auto.
    + intros r c Hr Hc. rewrite O1 by auto. destruct (Nat.eqb r i); auto. field; auto.
Qed.

Definition fwd_step (st : option (mat R * mat R)) (i : nat) : option (mat R * mat R) :=
  match st with
  | None => None
  | Some io => match inv_pivot n io i with
               | None => None
               | Some io' => Some (inv_sub n (inv_norm n io' i) i)
               end
  end.

Lemma forward_inv inn out : forall k, (k <= n)%nat ->
  match fold_left fwd_step (seq 0 k) (Some (inn, out)) with
  | Some (inn', out') => (forall r, (r < k)%nat -> rc inn' r r = 1) /\
      (forall x y, sys (rc inn) (rc out) x y <-> sys (eff k (rc inn')) (rc out') x y)
  | None => exists i inn' out', (i < k)%nat /\ fold_left fwd_step (seq 0 i) (Some (inn, out)) = Some (inn', out') /\
      (forall r, (r < i)%nat -> rc inn' r r = 1) /\
      (forall x y, sys (rc inn) (rc out) x y <-> sys (eff i (rc inn')) (rc out') x y) /\
      inv_pivot n (inn', out') i = None
  end.
Proof.
  induction k as [|k IH]; intros Hk.
  - simpl. split; [lia|]. intros x y. unfold eff. simpl. tauto.
  - rewrite seq_S, fold_left_app. simpl. specialize (IH ltac:(lia)).
    destruct (fold_left fwd_step (seq 0 k) (Some (inn, out))) as [[a o]|] eqn:F.
    + destruct IH as [Hd Hs]. unfold fwd_step. destruct (inv_pivot n (a, o) k) as [[a1 o1]|] eqn:P.
      * destruct (inv_sub n (inv_norm n (a1, o1) k) k) as [a2 o2] eqn:E.
        apply pivot_sys in P as (P1 & P2 & P3); [|lia].
        apply step_sys in E as (S1 & S2); [|lia|auto|intros r Hr; rewrite P2 by auto; apply Hd; auto].
        split; auto. intros x y. rewrite Hs, P3, S2. tauto.
      * exists k, a, o. repeat split; auto; apply Hs; auto.
    + unfold fwd_step. destruct IH as (i & a & o & Hi & H). exists i, a, o. split; [lia|auto].
Qed.

(** back substitution: columns k.. have been cleared *)
Definition eff2 (k : nat) (m : nat -> nat -> R) (r c : nat) : R :=
  if Nat.eqb r c then 1 else if Nat.ltb c r then 0 else if Nat.leb k c then 0 else m r c.
Lemma back_sys inn out i x y : (i < n)%nat ->
  sys (eff2 (S i) (rc inn)) (rc out) x y <-> sys (eff2 i (rc inn)) (rc (@inv_back R (Rnum eps) n inn out i)) x y.
Proof.
  intros Hi. apply (sys_rows_sub _ _ _ _ i (fun r => Nat.ltb r i) (fun r => rc inn r i)); auto.
  - apply Nat.ltb_irrefl.
  - intros r c Hr Hc. unfold eff2.
    destruct (Nat.ltb_spec r i); destruct (Nat.eqb_spec r c); destruct (Nat.eqb_spec i c); destruct (Nat.ltb_spec c r); destruct (Nat.ltb_spec c i);
      destruct (Nat.leb_spec i c); destruct (Nat.leb_spec (S i) c); try lia; subst; ring.
  - intros r c Hr Hc. unfold inv_back. rewrite rc_mtab by auto. tom. destruct (Nat.ltb r i); auto.
    destruct (Req_bool_spec (rc inn r i) 0) as [Z|Z]; simpl; try rewrite Z; ring.
Qed.
Lemma backward_sys inn x y : forall k out, (1 <= k)%nat -> (k <= n)%nat ->
  sys (eff2 k (rc inn)) (rc out) x y <-> sys (eff2 1 (rc inn)) (rc (fold_left (inv_back n inn) (rev (seq 1 (k - 1))) out)) x y.
Proof.
  induction k as [|k IH]; intros out H1 Hk; [lia|].
  destruct k as [|k]; [simpl; tauto|].
  replace (S (S k) - 1)%nat with (S k) by lia. rewrite seq_S, rev_app_distr. simpl fold_left.
  rewrite (back_sys inn out (S k) x y) by lia. rewrite IH by lia.
  replace (S k - 1)%nat with k by lia. tauto.
Qed.

Lemma matrix_inverse_sys inn out out' x y : @matrix_inverse R (Rnum eps) n inn out = Some out' ->
  sys (rc inn) (rc out) x y <-> (forall r, (r < n)%nat -> x r = mapply n (rc out') y r).
Proof.
  unfold matrix_inverse, inv_forward. pose proof (forward_inv inn out n (le_n n)) as H. fold fwd_step.
  change (fun (st : option (mat R * mat R)) (i : nat) => match st with None => None | Some io => match inv_pivot n io i with None => None | Some io' => Some (inv_sub n (inv_norm n io' i) i) end end) with fwd_step.
  destruct (fold_left fwd_step (seq 0 n) (Some (inn, out))) as [[a o]|]; [|discriminate].
  destruct H as [Hd Hs]. intros X; inversion X; subst; clear X. rewrite Hs.
  assert (E : sys (eff n (rc a)) (rc o) x y <-> sys (eff2 n (rc a)) (rc o) x y).
  { assert (meq n (eff n (rc a)) (eff2 n (rc a))) as E.
    { intros r c Hr Hc. unfold eff, eff2. cases; destruct (Nat.leb_spec n c); try lia; simpl; auto. subst. apply Hd; auto. }
    unfold sys. split; intros H r Hr; [rewrite <- H by auto|rewrite <- H by auto]; apply mapply_ext; auto. intros i j Hi Hj; symmetry; apply E; auto. }
  rewrite E. unfold inv_backward.
  destruct n as [|n'] eqn:En. { split; intros H r Hr; lia. }
  rewrite (backward_sys a x y (S n') o) by lia. rewrite <- En in *.
  set (o' := fold_left _ _ _). unfold sys.
  assert (I : forall r, (r < n)%nat -> mapply n (eff2 1 (rc a)) x r = x r).
  { intros r Hr. rewrite (mapply_ext n _ delta x x r Hr); auto using mapply_delta.
    intros i j Hi Hj. unfold eff2, delta. cases; auto. destruct (Nat.leb_spec 1 j); auto; lia. }
  split; intros H r Hr.
  - rewrite <- H by auto. symmetry; auto.
  - rewrite I by auto. auto.
Qed.

(** two-sided inverse *)
Lemma matrix_inverse_correct A B : @matrix_inverse R (Rnum eps) n A (mtab n kron) = Some B -> inverse_of n (rc A) (rc B).
Proof.
  intros H.
  assert (S : forall x y, (forall r, (r < n)%nat -> mapply n (rc A) x r = y r) <-> (forall r, (r < n)%nat -> x r = mapply n (rc B) y r)).
  { intros x y. rewrite <- (matrix_inverse_sys _ _ _ x y H). unfold sys.
    assert (K : forall r, (r < n)%nat -> mapply n (rc (mtab n kron)) y r = y r).
    { intros r Hr. rewrite (mapply_ext n _ delta y y r Hr); auto using mapply_delta.
      intros i j Hi Hj. rewrite rc_mtab by auto. reflexivity. }
    split; intros E r Hr; specialize (E r Hr); rewrite ?K in * by auto; auto. }
  split; intros i j Hi Hj.
  - assert (E : forall r, (r < n)%nat -> mapply n (rc A) (fun k => rc B k j) r = delta r j).
    { apply (S (fun k => rc B k j) (fun r => delta r j)). intros r Hr. unfold mapply. rewrite (Rsum_delta_r n (fun k => rc B r k) j Hj). reflexivity. }
    apply (E i Hi).
  - assert (E : forall r, (r < n)%nat -> delta r j = mapply n (rc B) (fun k => rc A k j) r).
    { apply (S (fun r => delta r j) (fun k => rc A k j)). intros r Hr. unfold mapply. rewrite (Rsum_delta_r n (fun k => rc A r k) j Hj). reflexivity. }
    symmetry. apply (E i Hi).
Qed.

Lemma matrix_inverse_dims A B : (1 < n)%nat -> @matrix_inverse R (Rnum eps) n A (mtab n kron) = Some B -> mdims n B.
Proof.
  intros Hn. unfold matrix_inverse. destruct (inv_forward n _) as [[a o]|]; [|discriminate]. intros X; inversion X; subst.
  unfold inv_backward. destruct n as [|[|k]]; try lia. replace (S (S k) - 1)%nat with (S k) by lia.
  simpl seq. simpl rev. rewrite fold_left_app. simpl. apply mdims_mtab.
Qed.

(** what failure means *)
Lemma matrix_inverse_failure A B : @matrix_inverse R (Rnum eps) n A B = None ->
  exists i U, (i < n)%nat /\
    (forall r c, (r < n)%nat -> (c < i)%nat -> U r c = if Nat.ltb c r then 0 else if Nat.eqb c r then 1 else U r c) /\
    (forall x, (forall r, (r < n)%nat -> mapply n (rc A) x r = 0) <-> (forall r, (r < n)%nat -> mapply n U x r = 0)) /\
    (forall r, (i <= r < n)%nat -> U r i * U r i <
       Rmax (Rsum n (fun j => U j i * U j i) / (bpow radix2 1024 - bpow radix2 971)) (bpow radix2 (-1022))).
Proof.
  unfold matrix_inverse, inv_forward. pose proof (forward_inv A B n (le_n n)) as H.
  change (fun (st : option (mat R * mat R)) (i : nat) => match st with None => None | Some io => match inv_pivot n io i with None => None | Some io' => Some (inv_sub n (inv_norm n io' i) i) end end) with fwd_step.
  destruct (fold_left fwd_step (seq 0 n) (Some (A, B))) as [[a o]|]; [discriminate|]. intros _.
  destruct H as (i & a & o & Hi & _ & Hd & Hs & Hp). exists i, (eff i (rc a)). split; auto.
  assert (Z0 : forall M r, mapply n M (fun _ => 0) r = 0) by (intros; apply Rsum_zero; intros; ring).
  split; [|split].
  - intros r c Hr Hc. unfold eff. cases; simpl; auto. subst. apply Hd; auto.
  - intros x. specialize (Hs x (fun _ => 0)). unfold sys in Hs. split; intros H r Hr.
    + rewrite (proj1 Hs) by (auto; intros; rewrite H, Z0; auto). apply Z0.
    + rewrite (proj2 Hs) by (auto; intros; rewrite H, Z0; auto). apply Z0.
  - intros r Hr. unfold inv_pivot in Hp. revert Hp. tom.
    destruct (Rlt_bool_spec (rc a i i * rc a i i) (minval n a i)) as [E|E]; [|discriminate].
    destruct (find_row n a i (minval n a i)) eqn:F; [discriminate|]. intros _.
    assert (C : forall j, (j < n)%nat -> eff i (rc a) j i = rc a j i) by (intros; unfold eff; rewrite Nat.ltb_irrefl; reflexivity).
    rewrite !C by lia. rewrite (Rsum_ext n _ (fun j => rc a j i * rc a j i)) by (intros; rewrite C by auto; reflexivity).
    rewrite <- minval_def. destruct (Nat.eq_dec r i) as [->|Ne]; auto.
    apply (find_row_none _ _ _ _ F). lia.
Qed.
End Inv.
