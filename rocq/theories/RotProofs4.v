(** setVals: what is accepted, what is stored, and that the loop ends. *)
From Coq Require Import Reals Lra Lia List Bool Psatz ZArith NArith.
From Flocq Require Import Core.Zaux Core.Raux.
From Verif Require Import Base Scalar ConstModel VecModel RotModel RSpec RLib VecSpec VecProofs RotSpec MatLib RotProofs RotProofs2.
Import ListNotations.
Open Scope R_scope.

Lemma fold_left_ext_in {A B} (f g : A -> B -> A) l : forall a, (forall a x, In x l -> f a x = g a x) -> fold_left f l a = fold_left g l a.
Proof. induction l as [|h t IH]; intros a H; simpl; auto. rewrite H by (left; auto). apply IH. intros; apply H; right; auto. Qed.

Section SV.
Context (eps : Epsilon).
Variable n : nat.

(** A A^T - I *)
Definition defect (A : nat -> nat -> R) (i j : nat) : R := mmul n A (mtr A) i j - delta i j.

Definition maxstep (f : nat -> R) (tp : R) (k : nat) : R := if Rle_bool tp (f k) then f k else tp.
Lemma maxstep_fold f l : forall tp, let r := fold_left (maxstep f) l tp in
  tp <= r /\ (forall k, In k l -> f k <= r) /\ (r = tp \/ exists k, In k l /\ r = f k).
Proof.
  induction l as [|h t IH]; intros tp; simpl.
  - repeat split; auto; [lra|intros k []].
  - destruct (IH (maxstep f tp h)) as (A & B & C).
    assert (tp <= maxstep f tp h /\ f h <= maxstep f tp h /\ (maxstep f tp h = tp \/ maxstep f tp h = f h)) as (P & Q & S).
    { unfold maxstep. destruct (Rle_bool_spec tp (f h)); repeat split; auto; lra. }
    split; [lra|]. split.
    + intros k [<-|Hk]; [lra|auto].
    + destruct C as [C|(k & Hk & C)]; [|right; exists k; auto]. rewrite C. destruct S as [S|S]; [auto|right; exists h; auto].
Qed.
Lemma maxstep_fold2 (f : nat -> nat -> R) l : forall tp, let r := fold_left (fun tp i => fold_left (maxstep (f i)) (seq 0 n) tp) l tp in
  tp <= r /\ (forall i j, In i l -> (j < n)%nat -> f i j <= r) /\ (r = tp \/ exists i j, In i l /\ (j < n)%nat /\ r = f i j).
Proof.
  induction l as [|h t IH]; intros tp; simpl.
  - repeat split; auto; [lra|intros i j []].
  - destruct (IH (fold_left (maxstep (f h)) (seq 0 n) tp)) as (A & B & C).
    destruct (maxstep_fold (f h) (seq 0 n) tp) as (P & Q & S).
    split; [lra|]. split.
    + intros i j [<-|Hi] Hj; [|auto]. eapply Rle_trans; [|exact A]. apply Q. apply in_seq; lia.
    + destruct C as [C|(i & j & Hi & Hj & C)]; [|right; exists i, j; auto]. rewrite C.
      destruct S as [S|(j & Hj & S)]; [auto|right; exists h, j; repeat split; auto]. apply in_seq in Hj; lia.
Qed.

Lemma orth_defect_eq vals : orth_defect n vals =
  fold_left (fun tp i => fold_left (maxstep (fun j => Rabs (defect (rc vals) i j))) (seq 0 n) tp) (seq 0 n) 0.
Proof.
  unfold orth_defect. apply fold_left_ext_in. intros a i Hi. apply fold_left_ext_in. intros b j Hj. apply in_seq in Hi, Hj.
  unfold maxstep. tom. rewrite nsum_Rsum. unfold defect, mmul, mtr, delta. destruct (Nat.eqb i j); rewrite ?Rminus_0_r; reflexivity.
Qed.
Lemma orth_defect_bound vals i j : (i < n)%nat -> (j < n)%nat -> Rabs (defect (rc vals) i j) <= orth_defect n vals.
Proof. intros Hi Hj. rewrite orth_defect_eq. apply (maxstep_fold2 (fun i j => Rabs (defect (rc vals) i j))); auto. apply in_seq; lia. Qed.
Lemma orth_defect_le vals b : 0 <= b -> (forall i j, (i < n)%nat -> (j < n)%nat -> Rabs (defect (rc vals) i j) <= b) -> orth_defect n vals <= b.
Proof.
  intros Hb H. rewrite orth_defect_eq.
  destruct (maxstep_fold2 (fun i j => Rabs (defect (rc vals) i j)) (seq 0 n) 0) as (_ & _ & [C|(i & j & Hi & Hj & C)]); rewrite C; auto.
  apply in_seq in Hi. apply H; lia.
Qed.
Lemma orth_defect_nonneg vals : 0 <= orth_defect n vals.
Proof. rewrite orth_defect_eq. apply (maxstep_fold2 (fun i j => Rabs (defect (rc vals) i j))). Qed.

(** ** results of the loop *)
Lemma loop_mono prec : forall f vals r, set_vals_loop n f prec vals = Some r -> forall f', (f <= f')%nat -> set_vals_loop n f' prec vals = Some r.
Proof.
  induction f as [|f IH]; intros vals r H f' Hf; [discriminate|]. destruct f' as [|f']; [lia|]. cbn [set_vals_loop nltb nleb neps Rnum] in *.
  destruct (Rlt_bool prec (orth_defect n vals)); auto. destruct (Rle_bool (orth_defect n vals) eps); auto.
  destruct (matrix_inverse n (transpose n vals) (mtab n kron)); auto. apply (IH _ _ H). lia.
Qed.
Lemma loop_result prec : forall f vals v, mdims n vals -> set_vals_loop n f prec vals = Some (Some v) ->
  orth_defect n vals <= prec /\ orth_defect n v <= eps /\ mdims n v.
Proof.
  induction f as [|f IH]; intros vals v D H; [discriminate|]. cbn [set_vals_loop nltb nleb neps Rnum] in H.
  destruct (Rlt_bool_spec prec (orth_defect n vals)) as [|P]; [discriminate|]. split; auto.
  destruct (Rle_bool_spec (orth_defect n vals) eps) as [Q|Q].
  - inversion H; subst; auto.
  - destruct (matrix_inverse n (transpose n vals) (mtab n kron)) as [b|]; [|discriminate].
    apply IH in H; [|apply mdims_mtab]. tauto.
Qed.
Lemma loop_first prec f vals : orth_defect n vals <= prec -> orth_defect n vals <= eps -> set_vals_loop n (S f) prec vals = Some (Some vals).
Proof. intros H1 H2. cbn [set_vals_loop nltb nleb neps Rnum]. rewrite Rlt_bool_false by lra. rewrite Rle_bool_true by lra. reflexivity. Qed.

(** ** the loop ends *)
Definition quad (D : nat -> nat -> R) (x : nat -> R) : R := inner n x (mapply n D x).
Definition psd (D : nat -> nat -> R) : Prop := forall x, 0 <= quad D x.
Definition sym (D : nat -> nat -> R) : Prop := forall i j, (i < n)%nat -> (j < n)%nat -> D i j = D j i.

Lemma quad_ext D E x : meq n D E -> quad D x = quad E x.
Proof. intros H. apply inner_ext; auto. intros i Hi. apply mapply_ext; auto. Qed.
Lemma quad_diag D i : (i < n)%nat -> quad D (ej i) = D i i.
Proof.
  intros Hi. unfold quad. rewrite inner_ej_l by auto. unfold mapply, ej.
  rewrite (Rsum_ext n _ (fun k => D i k * delta k i)) by (intros; rewrite delta_sym; reflexivity). apply (Rsum_delta_r n (fun k => D i k) i Hi).
Qed.
Lemma mapply_plus D x y i : mapply n D (fun k => x k + y k) i = mapply n D x i + mapply n D y i.
Proof. unfold mapply. rewrite <- Rsum_plus. apply Rsum_ext; intros; ring. Qed.
Lemma mapply_scal D c x i : mapply n D (fun k => c * x k) i = c * mapply n D x i.
Proof. unfold mapply. rewrite <- Rsum_scal_l. apply Rsum_ext; intros; ring. Qed.
Lemma mapply_ej D i j : (j < n)%nat -> mapply n D (ej j) i = D i j.
Proof. intros Hj. unfold mapply, ej. rewrite (Rsum_ext n _ (fun k => D i k * delta k j)) by (intros; rewrite delta_sym; reflexivity). apply (Rsum_delta_r n (fun k => D i k) j Hj). Qed.
Lemma quad_pair D i j c : sym D -> (i < n)%nat -> (j < n)%nat ->
  quad D (fun k => ej i k + c * ej j k) = D i i + 2 * c * D i j + c * c * D j j.
Proof.
  intros S Hi Hj. unfold quad.
  rewrite (inner_ext n _ _ (fun k => ej i k + c * ej j k) (fun k => D k i + c * D k j)); auto.
  - rewrite inner_plus_l, inner_scal_l. rewrite !inner_ej_l by auto. rewrite (S j i) by auto. ring.
  - intros k Hk. rewrite mapply_plus, mapply_scal, !mapply_ej by auto. reflexivity.
Qed.
Lemma psd_entry D i j : sym D -> psd D -> (i < n)%nat -> (j < n)%nat -> Rabs (D i j) <= (D i i + D j j) / 2.
Proof.
  intros S P Hi Hj. pose proof (P (fun k => ej i k + 1 * ej j k)) as A. pose proof (P (fun k => ej i k + (-1) * ej j k)) as B.
  rewrite quad_pair in A, B by auto. apply Rabs_le. lra.
Qed.

(** one averaging step: x^T D' x = |A^T x - A^-1 x|^2 / 4 *)
Lemma avg_defect A B A' i j : inverse_of n (mtr A) B -> meq n A' (fun i j => (A i j + B i j) / 2) -> (i < n)%nat -> (j < n)%nat ->
  defect A' i j = (mmul n A (mtr A) i j - 2 * delta i j + mmul n B (mtr B) i j) / 4.
Proof.
  intros [H1 H2] E Hi Hj. unfold defect.
  rewrite (mmul_ext n _ _ _ _ E (mtr_ext n _ _ E) i j Hi Hj). unfold mmul at 1, mtr at 1.
  rewrite (Rsum_ext n _ (fun k => / 4 * ((A i k * mtr A k j + B i k * mtr B k j) + (A i k * mtr B k j + B i k * mtr A k j)))).
  2:{ intros; unfold mtr; field. }
  rewrite Rsum_scal_l, !Rsum_plus.
  change (Rsum n (fun k => A i k * mtr A k j)) with (mmul n A (mtr A) i j). change (Rsum n (fun k => B i k * mtr B k j)) with (mmul n B (mtr B) i j).
  change (Rsum n (fun k => B i k * mtr A k j)) with (mmul n B (mtr A) i j).
  replace (Rsum n (fun k => A i k * mtr B k j)) with (mmul n B (mtr A) j i).
  2:{ unfold mmul, mtr. apply Rsum_ext. intros; ring. }
  rewrite !H2 by auto. rewrite (delta_sym j i). field.
Qed.
Lemma quad_gram A x : quad (mmul n A (mtr A)) x = norm2 n (mapply n (mtr A) x).
Proof.
  unfold quad. rewrite (inner_ext n _ _ x (mapply n A (mapply n (mtr A) x))); auto; [|intros; apply mapply_mmul].
  rewrite inner_comm, inner_mapply. reflexivity.
Qed.
Lemma quad_defect A x : quad (defect A) x = norm2 n (mapply n (mtr A) x) - norm2 n x.
Proof.
  rewrite <- quad_gram. unfold quad. unfold norm2 at 1. rewrite <- inner_minus_r. apply inner_ext; auto.
  intros i Hi. unfold defect. rewrite <- (mapply_delta n x i Hi). unfold mapply. rewrite <- Rsum_minus. apply Rsum_ext; intros; ring.
Qed.
Lemma quad_avg A B A' x : inverse_of n (mtr A) B -> meq n A' (fun i j => (A i j + B i j) / 2) ->
  quad (defect A') x = (norm2 n (mapply n (mtr A) x) - 2 * norm2 n x + norm2 n (mapply n (mtr B) x)) / 4 /\
  inner n (mapply n (mtr A) x) (mapply n (mtr B) x) = norm2 n x.
Proof.
  intros HI E. split.
  - rewrite (quad_ext _ (fun i j => (mmul n A (mtr A) i j - 2 * delta i j + mmul n B (mtr B) i j) / 4)).
    2:{ intros i j Hi Hj. apply (avg_defect A B); auto. }
    rewrite <- !quad_gram. unfold quad at 1.
    rewrite (inner_ext n _ _ x (fun i => / 4 * (mapply n (mmul n A (mtr A)) x i + ((-2) * x i + mapply n (mmul n B (mtr B)) x i)))); auto.
    2:{ intros i Hi. unfold mapply. rewrite <- (Rsum_delta_l n x i Hi). rewrite <- !Rsum_scal_l, <- !Rsum_plus, <- !Rsum_scal_l. apply Rsum_ext. intros. field. }
    rewrite inner_scal_r, !inner_plus_r, inner_scal_r. unfold quad, norm2. field.
  - destruct HI as [H1 H2]. rewrite inner_mapply. apply inner_ext; auto. intros i Hi. rewrite <- mapply_mmul.
    rewrite (mapply_ext n _ delta x x i Hi); auto using mapply_delta.
    intros a b Ha Hb. rewrite (delta_sym a b). rewrite <- (H2 b a Hb Ha). unfold mmul, mtr. apply Rsum_ext; intros; ring.
Qed.
Lemma avg_psd A B A' : inverse_of n (mtr A) B -> meq n A' (fun i j => (A i j + B i j) / 2) -> psd (defect A').
Proof.
  intros HI E x. destruct (quad_avg A B A' x HI E) as [Q I]. rewrite Q.
  pose proof (norm2_nonneg n (fun i => mapply n (mtr A) x i - mapply n (mtr B) x i)) as N. rewrite norm2_minus, I in N. lra.
Qed.
Lemma avg_quarter A B A' : inverse_of n (mtr A) B -> meq n A' (fun i j => (A i j + B i j) / 2) -> psd (defect A) ->
  forall x, quad (defect A') x <= quad (defect A) x / 4.
Proof.
  intros HI E P x. destruct (quad_avg A B A' x HI E) as [Q I]. rewrite Q, quad_defect.
  set (w := mapply n (mtr B) x).
  assert (L : norm2 n w <= norm2 n x).
  { assert (E1 : norm2 n w = inner n x (mapply n B w)).
    { unfold norm2. unfold w at 1. rewrite inner_mapply. reflexivity. }
    pose proof (cauchy_schwarz n x (mapply n B w)) as CS. rewrite <- E1 in CS.
    pose proof (P (mapply n B w)) as PB. rewrite quad_defect in PB.
    assert (E2 : norm2 n (mapply n (mtr A) (mapply n B w)) = norm2 n w).
    { apply inner_ext; intros i Hi; rewrite <- mapply_mmul; rewrite (mapply_ext n _ delta w w i Hi (proj1 HI)) by auto; apply mapply_delta; auto. }
    rewrite E2 in PB. pose proof (norm2_nonneg n x). pose proof (norm2_nonneg n w). pose proof (norm2_nonneg n (mapply n B w)).
    destruct (Req_dec (norm2 n w) 0); [lra|]. 
    assert (norm2 n x * norm2 n (mapply n B w) <= norm2 n x * norm2 n w) by (apply Rmult_le_compat_l; lra).
    apply Rmult_le_reg_r with (norm2 n w); lra. }
  lra.
Qed.
Lemma defect_sym A : sym (defect A).
Proof. intros i j Hi Hj. unfold defect. rewrite delta_sym. f_equal. unfold mmul, mtr. apply Rsum_ext; intros; ring. Qed.

Lemma psd_bound vals : psd (defect (rc vals)) -> orth_defect n vals <= tr n (defect (rc vals)).
Proof.
  intros P. assert (N : forall i, (i < n)%nat -> 0 <= defect (rc vals) i i) by (intros i Hi; rewrite <- quad_diag by auto; apply P).
  apply orth_defect_le. apply Rsum_nonneg; auto.
  intros i j Hi Hj. eapply Rle_trans; [apply psd_entry; auto using defect_sym|].
  pose proof (Rsum_term_le n (fun i => defect (rc vals) i i) i N Hi). pose proof (Rsum_term_le n (fun i => defect (rc vals) i i) j N Hj).
  unfold tr. simpl in *. lra.
Qed.

Lemma average_meq a b : meq n (rc (average n a b)) (fun i j => (rc a i j + rc b i j) / 2).
Proof. intros i j Hi Hj. unfold average. rewrite rc_mtab by auto. reflexivity. Qed.
Lemma transpose_inverse vals b : matrix_inverse n (transpose n vals) (mtab n kron) = Some b -> inverse_of n (mtr (rc vals)) (rc b).
Proof.
  intros H. apply matrix_inverse_correct in H as [H1 H2]. pose proof (meq_sym n _ _ (transpose_rc eps n vals)) as TR.
  split; [apply (meq_trans n _ _ _ (mmul_ext n _ _ _ _ TR (meq_refl n _)) H1)|apply (meq_trans n _ _ _ (mmul_ext n _ _ _ _ (meq_refl n _) TR) H2)].
Qed.

Lemma loop_ends prec : forall k vals, psd (defect (rc vals)) -> tr n (defect (rc vals)) <= eps * 4 ^ k -> set_vals_loop n (S k) prec vals <> None.
Proof.
  induction k as [|k IH]; intros vals P H.
  - cbn [set_vals_loop nltb nleb neps Rnum]. destruct (Rlt_bool _ _); [discriminate|]. rewrite Rle_bool_true; [discriminate|].
    pose proof (psd_bound vals P). simpl in H. lra.
  - remember (S k) as k'. cbn [set_vals_loop nltb nleb neps Rnum]. subst k'. destruct (Rlt_bool _ _); [discriminate|]. destruct (Rle_bool _ _); [discriminate|].
    destruct (matrix_inverse n (transpose n vals) (mtab n kron)) as [b|] eqn:EI; [|discriminate].
    apply transpose_inverse in EI. pose proof (average_meq vals b) as EA.
    apply IH.
    + apply (avg_psd _ _ _ EI EA).
    + assert (T : tr n (defect (rc (average n vals b))) <= tr n (defect (rc vals)) / 4).
      { unfold tr. replace (Rsum n (fun i => defect (rc vals) i i) / 4) with (Rsum n (fun i => defect (rc vals) i i * / 4)) by (rewrite Rsum_scal_r; reflexivity).
        apply Rsum_le. intros i Hi. pose proof (avg_quarter _ _ _ EI EA P (ej i)) as A. rewrite !quad_diag in A by auto. exact A. }
      simpl in H. lra.
Qed.

Lemma pow4_unbounded b : exists k, b <= 4 ^ k.
Proof.
  destruct (Pow_x_infinity 4 ltac:(rewrite Rabs_pos_eq; lra) b) as [k Hk]. exists k. specialize (Hk k (le_n k)).
  rewrite Rabs_pos_eq in Hk by (apply pow_le; lra). lra.
Qed.

Lemma loop_terminates prec vals : 0 < (eps : R) -> exists f, set_vals_loop n f prec vals <> None.
Proof.
  intros He. destruct (Rlt_bool prec (orth_defect n vals)) eqn:E1; [exists 1%nat; cbn [set_vals_loop nltb nleb neps Rnum]; rewrite E1; discriminate|].
  destruct (Rle_bool (orth_defect n vals) eps) eqn:E2; [exists 1%nat; cbn [set_vals_loop nltb nleb neps Rnum]; rewrite E1, E2; discriminate|].
  destruct (matrix_inverse n (transpose n vals) (mtab n kron)) as [b|] eqn:EI; [|exists 1%nat; cbn [set_vals_loop nltb nleb neps Rnum]; rewrite E1, E2, EI; discriminate].
  destruct (pow4_unbounded (tr n (defect (rc (average n vals b))) / eps)) as [k Hk].
  exists (S (S k)). remember (S k) as k'. cbn [set_vals_loop nltb nleb neps Rnum]. rewrite E1, E2, EI. subst k'. apply loop_ends.
  - apply transpose_inverse in EI. apply (avg_psd _ _ _ EI (average_meq vals b)).
  - apply Rmult_le_reg_r with (/ eps); [apply Rinv_0_lt_compat; auto|]. replace (eps * 4 ^ k * / eps) with (4 ^ k) by (field; lra). exact Hk.
Qed.

(** ** setVals *)
Lemma nine_tenths_pos : 0 < nine_tenths (T := R).
Proof. unfold nine_tenths. cbn [nldexp nofZ Rnum]. apply Rmult_lt_0_compat. apply IZR_lt; reflexivity. apply bpow_gt_0. Qed.

Lemma set_vals_mono f f' m vals prec r : set_vals n f m vals prec = Some r -> (f <= f')%nat -> set_vals n f' m vals prec = Some r.
Proof.
  unfold set_vals. destruct (_ <=? _)%num; auto. intros H Hf.
  destruct (set_vals_loop n f (nabs prec) _) as [x|] eqn:E; [|discriminate]. rewrite (loop_mono _ _ _ _ E f' Hf). exact H.
Qed.
Lemma set_vals_terminates m vals prec : 0 < (eps : R) -> exists f r, set_vals n f m vals prec = Some r.
Proof.
  intros He. unfold set_vals. destruct (_ <=? _)%num; [exists O; eauto|].
  destruct (loop_terminates (nabs prec) (mtab n (fun i j => mget vals i j)) He) as [f Hf]. exists f.
  destruct (set_vals_loop n f _ _) as [[v|]|]; [eauto|eauto|congruence].
Qed.
Lemma set_vals_sound f m vals prec b m' : set_vals n f m vals prec = Some (b, m') ->
  if b then
    (forall i j, (i < n)%nat -> (j < n)%nat -> Rabs (mmul n (rc vals) (mtr (rc vals)) i j - delta i j) <= Rabs prec) /\
    (forall i j, (i < n)%nat -> (j < n)%nat -> Rabs (mmul n (ent m') (mtr (ent m')) i j - delta i j) <= eps) /\
    mdims n (me m') /\ mvalid m' = true /\ mage m' = 1%N /\ mflip m' = Rlt_bool (matrix_det n (me m')) 0
  else m' = m.
Proof.
  unfold set_vals. cbn [nleb nabs Rnum]. destruct (Rle_bool_spec nine_tenths (Rabs prec)) as [|Hp]; [intros X; inversion X; auto|].
  destruct (set_vals_loop n f (Rabs prec) _) as [[v|]|] eqn:E; intros X; inversion X; subst; clear X; auto.
  apply loop_result in E as (E1 & E2 & D); [|apply mdims_mtab].
  split; [|split; [|repeat split; auto]].
  - intros i j Hi Hj. eapply Rle_trans; [|exact E1]. eapply Rle_trans; [|apply (orth_defect_bound _ i j Hi Hj)].
    apply Req_le. f_equal. unfold defect. f_equal. symmetry. apply mmul_ext; auto; intros a c Ha Hc; unfold mtr; rewrite rc_mtab by auto; reflexivity.
  - intros i j Hi Hj. eapply Rle_trans; [|exact E2]. apply (orth_defect_bound v i j Hi Hj).
  - apply D.
  - apply D.
Qed.
Lemma set_vals_exact f m vals prec : 0 <= (eps : R) -> mdims n vals -> orthogonal n (rc vals) -> Rabs prec < nine_tenths (T := R) ->
  exists m', set_vals n (S f) m vals prec = Some (true, m') /\ me m' = vals.
Proof.
  intros He D O Hp. unfold set_vals. cbn [nleb nabs Rnum]. rewrite Rle_bool_false by auto.
  replace (mtab n (fun i j => mget vals i j)) with vals.
  2:{ symmetry. apply (mtab_rc n vals D). }
  assert (Z : orth_defect n vals <= 0).
  { apply orth_defect_le; [lra|]. intros i j Hi Hj. unfold defect. rewrite (O i j Hi Hj). rewrite Rminus_diag_eq by reflexivity. rewrite Rabs_R0. lra. }
  rewrite loop_first; [|pose proof (Rabs_pos prec); lra|lra]. eexists. split; reflexivity.
Qed.
End SV.
