(** Proofs about the Mersenne twister model. *)
From Coq Require Import List ZArith NArith Lia Bool Ascii Arith.
From Coq Require Import ZifyBool ZifyNat ZifyN.
From Verif Require Import Base MTModel MTSpec IntStrSpec.
Import ListNotations.
Open Scope N_scope.

(** ** Loops *)
Lemma oloop_inv {A} (P : nat -> A -> Prop) f : forall count start s,
  (forall i a, (start <= i < start + count)%nat -> P i a -> exists a', f i a = Ret a' /\ P (S i) a') ->
  P start s -> exists s', oloop count start f s = Ret s' /\ P (start + count)%nat s'.
Proof.
  induction count as [|c IH]; intros start s Hf Hs; cbn [oloop].
  - exists s. rewrite Nat.add_0_r. auto.
  - destruct (Hf start s) as (s1 & E & H1); [lia|auto|].
    rewrite E. cbn [obind].
    destruct (IH (S start) s1) as (s2 & E2 & H2).
    + intros i a Hi; apply Hf; lia.
    + exact H1.
    + exists s2. split; auto. replace (start + S c)%nat with (S start + c)%nat by lia. auto.
Qed.

Lemma orepeat_inv {A} (P : A -> Prop) f count s :
  (forall a, P a -> exists a', f a = Ret a' /\ P a') ->
  P s -> exists s', orepeat count f s = Ret s' /\ P s'.
Proof.
  intros Hf Hs. destruct (oloop_inv (fun _ a => P a) (fun _ => f) count 0 s) as (s' & E & H); eauto.
Qed.

(** ** Words *)
Lemma word_bits x : is_word x <-> forall i, 32 <= i -> N.testbit x i = false.
Proof.
  unfold is_word. split.
  - intros H i Hi. rewrite <- (N.mod_small x (2 ^ 32)) by auto. apply N.mod_pow2_bits_high; auto.
  - intros H. replace x with (x mod 2 ^ 32). { apply N.mod_lt; discriminate. }
    apply N.bits_inj; intros i. destruct (N.lt_ge_cases i 32).
    + apply N.mod_pow2_bits_low; auto.
    + rewrite N.mod_pow2_bits_high; auto. symmetry; apply H; auto.
Qed.
Lemma word_w32 x : is_word (w32 x).
Proof. unfold is_word, w32. apply N.mod_lt; discriminate. Qed.
Lemma word_lxor x y : is_word x -> is_word y -> is_word (N.lxor x y).
Proof. rewrite !word_bits; intros H K i Hi. rewrite N.lxor_spec, H, K; auto. Qed.
Lemma word_lor x y : is_word x -> is_word y -> is_word (N.lor x y).
Proof. rewrite !word_bits; intros H K i Hi. rewrite N.lor_spec, H, K; auto. Qed.
Lemma word_land x y : is_word x -> is_word (N.land x y).
Proof. rewrite !word_bits; intros H i Hi. rewrite N.land_spec, H; auto. Qed.
Lemma word_shiftr x n : is_word x -> is_word (N.shiftr x n).
Proof. rewrite !word_bits; intros H i Hi. rewrite N.shiftr_spec', H; auto; lia. Qed.
Lemma word_0 : is_word 0. Proof. reflexivity. Qed.
Lemma word_A : is_word MATRIX_A. Proof. reflexivity. Qed.
#[export] Hint Resolve word_w32 word_lxor word_lor word_land word_shiftr word_0 word_A : word.

Lemma Forall_upd {A} (P : A -> Prop) l i x : Forall P l -> P x -> Forall P (upd l i x).
Proof.
  intros H Hx; revert i; induction H; intros [|i]; simpl; constructor; auto.
Qed.

Definition block (a : list N) : Prop := length a = 624%nat /\ Forall is_word a.

Lemma block_upd a i x : block a -> is_word x -> block (upd a i x).
Proof. intros [H K] Hx; split. - now rewrite upd_length. - now apply Forall_upd. Qed.

Lemma block_get a i : block a -> (i < 624)%nat -> oget a i = Ret (nth i a 0) /\ is_word (nth i a 0).
Proof.
  intros [H K] Hi. split. - apply oget_ret; lia.
  - rewrite Forall_forall in K. apply K, nth_In; lia.
Qed.

Lemma block_set a i x : block a -> (i < 624)%nat -> is_word x -> oset a i x = Ret (upd a i x) /\ block (upd a i x).
Proof. intros B Hi Hx. split. - apply oset_ret. destruct B; lia. - now apply block_upd. Qed.

Lemma seed_word_gen g s : length (st g) = 624%nat -> is_word s ->
  exists g', seed_word g s = Ret g' /\ length (st g') = 624%nat /\ idx g' = 624 /\
   nth 0 (st g') 0 = s /\ Forall is_word (st g') /\
   (forall i, (1 <= i < 624)%nat -> nth i (st g') 0 =
      w32 (1812433253 * (N.lxor (nth (i - 1) (st g') 0) (N.shiftr (nth (i - 1) (st g') 0) 30)) + N.of_nat i)).
Proof.
  intros L Hs. unfold seed_word. rewrite oset_ret by lia. cbn [obind].
  set (f := fun (i : nat) (a : list N) => _).
  destruct (oloop_inv (fun k a => length a = 624%nat /\ nth 0 a 0 = s /\
      (forall i, (i < k)%nat -> is_word (nth i a 0)) /\
      (forall i, (1 <= i < k)%nat -> nth i a 0 =
      w32 (1812433253 * (N.lxor (nth (i - 1) a 0) (N.shiftr (nth (i - 1) a 0) 30)) + N.of_nat i)))
      f 623 1 (upd (st g) 0 s)) as (a & E & La & H0 & HW & HR).
  - intros i a Hi (La & H0 & HW & HR). unfold f.
    rewrite (oget_ret a (i - 1) 0) by lia. cbn [obind].
    rewrite oset_ret by lia. eexists; split; [reflexivity|].
    rewrite upd_length. split; [auto|]. split; [rewrite nth_upd_other by lia; auto|]. split.
    + intros j Hj. destruct (Nat.eq_dec i j) as [->|N].
      * rewrite nth_upd_same by lia. apply word_w32.
      * rewrite nth_upd_other by auto. apply HW; lia.
    + intros j Hj. destruct (Nat.eq_dec i j) as [->|N].
      * rewrite nth_upd_same by lia. rewrite nth_upd_other by lia. reflexivity.
      * rewrite nth_upd_other by auto. rewrite nth_upd_other by lia. apply HR; lia.
  - rewrite upd_length. split; [auto|]. split; [apply nth_upd_same; lia|]. split.
    + intros i Hi. replace i with 0%nat by lia. rewrite nth_upd_same by lia. auto.
    + intros i Hi; lia.
  - rewrite E. cbn [obind]. eexists; split; [reflexivity|]. cbn [st idx].
    repeat split; auto.
    apply Forall_forall. intros x Hx. destruct (In_nth a x 0 Hx) as (i & Hi & <-). apply HW. lia.
Qed.

(** seed(s) depends only on s. *)
Lemma seed_word_det g g2 s g1 : is_word s -> length (st g) = 624%nat -> length (st g2) = 624%nat ->
  seed_word g s = Ret g1 -> seed_word g2 s = Ret g1.
Proof.
  intros Hs L L2 E. destruct (seed_word_gen g s L Hs) as (g' & E' & La & Li & H0 & _ & HR).
  rewrite E in E'. inversion E'; subst g'. clear E'.
  destruct (seed_word_gen g2 s L2 Hs) as (g' & E' & La' & Li' & H0' & _ & HR').
  rewrite E'. f_equal. destruct g' as [a i], g1 as [b j]. cbn [st idx] in *. subst. f_equal.
  apply (nth_ext _ _ 0 0); [congruence|].
  intros n Hn. rewrite La' in Hn.
  induction n as [n IH] using lt_wf_ind. destruct (Nat.eq_dec n 0) as [->|Nz]; [congruence|].
  rewrite HR, HR' by lia. rewrite IH by lia. reflexivity.
Qed.

Lemma mix1_ok init a i j : init <> [] -> Forall is_word init -> block a -> (1 <= i < 624)%nat -> (j < length init)%nat ->
  exists a' i' j', mix1 init (a, i, j) = Ret (a', i', j') /\ block a' /\ (1 <= i' < 624)%nat /\ (j' < length init)%nat.
Proof.
  intros Hne Hw B Hi Hj. unfold mix1.
  destruct (block_get a (i - 1) B) as [E1 W1]; [lia|]. rewrite E1. cbn [obind].
  destruct (block_get a i B) as [E2 W2]; [lia|]. rewrite E2. cbn [obind].
  rewrite (oget_ret init j 0) by auto. cbn [obind].
  match goal with |- context [oset a i ?x] => destruct (block_set a i x B) as [E3 B3]; [lia|apply word_w32|] end.
  rewrite E3. cbn [obind].
  assert (Hj' : ((if Nat.leb (length init) (S j) then 0 else S j) < length init)%nat).
  { destruct (Nat.leb_spec (length init) (S j)); lia. }
  match type of B3 with block ?z => set (a1 := z) in * end.
  destruct (Nat.leb_spec 624 (S i)).
  - destruct (block_get a1 623 B3) as [E4 W4]; [lia|]. rewrite E4. cbn [obind].
    destruct (block_set a1 0 (nth 623 a1 0) B3) as [E5 B5]; [lia|auto|]. rewrite E5. cbn [obind].
    do 3 eexists; split; [reflexivity|]. repeat split; auto; try apply B5; lia.
  - cbn [obind]. do 3 eexists; split; [reflexivity|]. repeat split; auto; try apply B3; lia.
Qed.

Lemma mix2_ok a i : block a -> (1 <= i < 624)%nat ->
  exists a' i', mix2 (a, i) = Ret (a', i') /\ block a' /\ (1 <= i' < 624)%nat.
Proof.
  intros B Hi. unfold mix2.
  destruct (block_get a (i - 1) B) as [E1 W1]; [lia|]. rewrite E1. cbn [obind].
  destruct (block_get a i B) as [E2 W2]; [lia|]. rewrite E2. cbn [obind].
  match goal with |- context [oset a i ?x] => destruct (block_set a i x B) as [E3 B3]; [lia|apply word_w32|] end.
  rewrite E3. cbn [obind].
  match type of B3 with block ?z => set (a1 := z) in * end.
  destruct (Nat.leb_spec 624 (S i)).
  - destruct (block_get a1 623 B3) as [E4 W4]; [lia|]. rewrite E4. cbn [obind].
    destruct (block_set a1 0 (nth 623 a1 0) B3) as [E5 B5]; [lia|auto|]. rewrite E5. cbn [obind].
    do 2 eexists; split; [reflexivity|]. repeat split; auto; try apply B5; lia.
  - do 2 eexists; split; [reflexivity|]. repeat split; auto; try apply B3; lia.
Qed.

Lemma seed_array_ok g init : length (st g) = 624%nat -> init <> [] -> Forall is_word init ->
  exists g', seed_array g init = Ret g' /\ block (st g') /\ idx g' = 624 /\ nth 0 (st g') 0 = 0x80000000.
Proof.
  intros L Hne Hw. unfold seed_array.
  destruct (seed_word_gen g 19650218 L) as (g0 & E0 & L0 & I0 & _ & W0 & _); [reflexivity|].
  rewrite E0. cbn [obind].
  assert (Hlen : (0 < length init)%nat) by (destruct init; [congruence|simpl; lia]).
  destruct (orepeat_inv (fun x => let '(a, i, j) := x in block a /\ (1 <= i < 624)%nat /\ (j < length init)%nat)
     (mix1 init) (Nat.max 624 (length init)) (st g0, 1%nat, 0%nat)) as ([[a1 i1] j1] & E1 & B1 & Hi1 & Hj1).
  { intros [[a i] j] (B & Hi & Hj). destruct (mix1_ok init a i j Hne Hw B Hi Hj) as (a' & i' & j' & E & B' & H').
    exists (a', i', j'). tauto. }
  { repeat split; auto; lia. }
  rewrite E1. cbn [obind].
  destruct (orepeat_inv (fun x => let '(a, i) := x in block a /\ (1 <= i < 624)%nat)
     mix2 623 (a1, i1)) as ([a2 i2] & E2 & B2 & Hi2).
  { intros [a i] (B & Hi). destruct (mix2_ok a i B Hi) as (a' & i' & E & B' & H'). exists (a', i'). tauto. }
  { split; auto. }
  rewrite E2. cbn [obind].
  destruct (block_set a2 0 0x80000000 B2) as [E3 B3]; [lia|reflexivity|]. rewrite E3. cbn [obind].
  eexists; split; [reflexivity|]. cbn [st idx]. repeat split; try apply B3; auto.
  apply nth_upd_same. destruct B2; lia.
Qed.

Lemma seed_array_det g g2 init g1 : length (st g) = 624%nat -> length (st g2) = 624%nat ->
  seed_array g init = Ret g1 -> seed_array g2 init = Ret g1.
Proof.
  intros L L2. unfold seed_array. intros E.
  destruct (seed_word_gen g 19650218 L) as (g0 & E0 & _); [reflexivity|].
  rewrite (seed_word_det g g2 19650218 g0 eq_refl L L2 E0). rewrite E0 in E. exact E.
Qed.

(** ** The block refill *)
Definition twv (u v : N) : N :=
  let y := N.lor (N.land u UPPER_MASK) (N.land v LOWER_MASK) in
  N.lxor (N.shiftr y 1) (if N.odd y then MATRIX_A else 0).

Lemma mag01_get y : oget mag01 (N.to_nat (N.land y 1)) = Ret (if N.odd y then MATRIX_A else 0).
Proof.
  replace (N.land y 1) with (y mod 2).
  - rewrite <- N.bit0_mod. rewrite N.bit0_odd. now destruct (N.odd y).
  - symmetry. exact (N.land_ones y 1).
Qed.

Lemma twist_at_ok k nxt src a : block a -> (k < 624)%nat -> (nxt < 624)%nat -> (src < 624)%nat ->
  twist_at k nxt src a = Ret (upd a k (N.lxor (nth src a 0) (twv (nth k a 0) (nth nxt a 0)))) /\
  block (upd a k (N.lxor (nth src a 0) (twv (nth k a 0) (nth nxt a 0)))).
Proof.
  intros B Hk Hn Hs. unfold twist_at.
  destruct (block_get a k B Hk) as [E1 W1]. rewrite E1.
  destruct (block_get a nxt B Hn) as [E2 W2]. rewrite E2.
  destruct (block_get a src B Hs) as [E3 W3]. rewrite E3.
  cbn [obind]. rewrite mag01_get. cbn [obind]. unfold twv.
  rewrite N.lxor_assoc. apply block_set; auto.
  apply word_lxor; auto. apply word_lxor.
  - apply word_shiftr, word_lor; apply word_land; auto.
  - destruct (N.odd _); auto with word.
Qed.

Definition refill_state (x : nat -> N) (k : nat) (a : list N) : Prop :=
  block a /\ (forall i, (i < k)%nat -> nth i a 0 = x (i + 624)%nat) /\
  (forall i, (k <= i < 624)%nat -> nth i a 0 = x i).

Lemma refill_step x k nxt src a : refill_state x k a -> (k < 624)%nat -> (nxt < 624)%nat -> (src < 624)%nat ->
  x (k + 624)%nat = N.lxor (nth src a 0) (twv (x k) (nth nxt a 0)) ->
  exists a', twist_at k nxt src a = Ret a' /\ refill_state x (S k) a'.
Proof.
  intros (B & H1 & H2) Hk Hn Hs Hx. destruct (twist_at_ok k nxt src a B Hk Hn Hs) as [E B'].
  eexists; split; [exact E|]. split; [exact B'|]. split.
  - intros i Hi. destruct (Nat.eq_dec k i) as [->|Ne].
    + rewrite nth_upd_same by (destruct B as [La _]; rewrite La; exact Hk). rewrite (H2 i) by lia. auto.
    + rewrite nth_upd_other by auto. apply H1; lia.
  - intros i Hi. rewrite nth_upd_other by lia. apply H2; lia.
Qed.

Definition mt_rec (x : nat -> N) : Prop :=
  forall k, x (k + 624)%nat = N.lxor (x (k + 397)%nat) (twv (x k) (x (k + 1)%nat)).

Lemma refill_ok x a : mt_rec x -> refill_state x 0 a -> exists a', refill a = Ret a' /\ refill_state x 624 a'.
Proof.
  intros R S0. unfold refill.
  change (N.to_nat (state_size - period)) with 227%nat.
  change (N.to_nat (period - 1)) with 396%nat. change (N.to_nat (state_size - 1)) with 623%nat.
  change (N.to_nat period) with 397%nat.
  destruct (oloop_inv (refill_state x) (fun k => twist_at k (k + 1) (k + 397)) 227 0 a) as (a1 & E1 & S1); auto.
  { intros k b Hk Sb. apply (refill_step x); auto; try lia.
    destruct Sb as (_ & _ & H2). rewrite !H2 by lia. apply R. }
  rewrite E1. cbn [obind].
  match goal with |- context [oloop 396 227 ?f a1] => destruct (oloop_inv (refill_state x) f 396 227 a1) as (a2 & E2 & S2) end; auto.
  { intros k b Hk Sb.
    assert (Ek : N.to_nat (w32 (N.of_nat k + w32 (period + 2 ^ 32 - state_size))) = (k - 227)%nat).
    { change (w32 (period + 2 ^ 32 - state_size)) with 4294967069. unfold w32.
      replace (N.of_nat k + 4294967069) with (N.of_nat (k - 227) + 1 * 2 ^ 32).
      - rewrite N.mod_add by discriminate. rewrite N.mod_small; [lia|].
        change (2 ^ 32) with 4294967296. lia.
      - change (2 ^ 32) with 4294967296. lia. }
    rewrite Ek. apply (refill_step x); auto; try lia.
    destruct Sb as (_ & H1 & H2). rewrite H1 by lia. rewrite H2 by lia.
    replace (k - 227 + 624)%nat with (k + 397)%nat by lia. apply R. }
  rewrite E2. cbn [obind]. change (227 + 396)%nat with 623%nat in S2.
  destruct (refill_step x 623 0 396 a2) as (a3 & E3 & S3); auto; try lia.
  { destruct S2 as (_ & H1 & H2). rewrite !H1 by lia.
    exact (R 623%nat). }
  exists a3. auto.
Qed.

(** Existence of the infinite sequence. *)
Fixpoint window (n : nat) (w : list N) : list N :=
  match n with
  | O => w
  | S m => let w' := window m w in
           tl w' ++ [N.lxor (nth 397 w' 0) (twv (nth 0 w' 0) (nth 1 w' 0))]
  end.

Lemma window_length n w : length w = 624%nat -> length (window n w) = 624%nat.
Proof.
  intros L; induction n as [|n IH]; cbn [window]; auto.
  rewrite app_length. destruct (window n w) as [|h t]; simpl in *; lia.
Qed.

Lemma window_nth n w : length w = 624%nat -> forall i, (i < 623)%nat -> nth i (window (S n) w) 0 = nth (S i) (window n w) 0.
Proof.
  intros L i Hi. cbn [window]. pose proof (window_length n w L) as Ln.
  destruct (window n w) as [|h t]; cbn [length tl] in *; [lia|].
  rewrite app_nth1 by lia. reflexivity.
Qed.

Definition mtseq (w : list N) (n : nat) : N := nth 0 (window n w) 0.

Lemma mtseq_shift w : length w = 624%nat -> forall i n, (i < 624)%nat -> nth i (window n w) 0 = mtseq w (n + i).
Proof.
  intros L. induction i as [|i IH]; intros n Hi.
  - now rewrite Nat.add_0_r.
  - rewrite <- window_nth by (auto; lia). rewrite IH by lia. f_equal; lia.
Qed.

Lemma mtseq_rec w : length w = 624%nat -> mt_rec (mtseq w).
Proof.
  intros L k. pose proof (window_length k w L) as Lk.
  replace (k + 624)%nat with (S k + 623)%nat by lia.
  rewrite <- (mtseq_shift w L 623 (S k)) by lia.
  rewrite <- (mtseq_shift w L 397 k) by lia.
  rewrite <- (mtseq_shift w L 1 k) by lia.
  replace (mtseq w k) with (nth 0 (window k w) 0) by reflexivity.
  assert (Lt : length (tl (window k w)) = 623%nat).
  { revert Lk. destruct (window k w) as [|h t]; cbn [tl length]; lia. }
  cbn [window]. rewrite app_nth2 by lia. rewrite Lt. reflexivity.
Qed.

(** The spec twist is the masked one. *)
Lemma twv_spec u v : is_word u -> twv u v = mt_twist u v.
Proof.
  intros Hu. unfold twv, mt_twist.
  assert (Ey : N.lor (N.land u UPPER_MASK) (N.land v LOWER_MASK) = 2 ^ 31 * (u / 2 ^ 31) + v mod 2 ^ 31).
  { replace (N.land v LOWER_MASK) with (v mod 2 ^ 31) by (symmetry; exact (N.land_ones v 31)).
    replace (N.land u UPPER_MASK) with (2 ^ 31 * (u / 2 ^ 31)).
    - rewrite (N.mul_comm (2 ^ 31)). rewrite <- N.shiftr_div_pow2, <- N.shiftl_mul_pow2.
      assert (D : N.land (N.shiftl (N.shiftr u 31) 31) (v mod 2 ^ 31) = 0).
      { apply N.bits_inj_0. intros i. rewrite N.land_spec. destruct (N.lt_ge_cases i 31).
        - rewrite N.shiftl_spec_low by auto. reflexivity.
        - rewrite N.mod_pow2_bits_high by auto. apply andb_false_r. }
      rewrite <- N.lxor_lor by exact D. symmetry. apply N.add_nocarry_lxor. exact D.
    - rewrite (N.mul_comm (2 ^ 31)). rewrite <- N.shiftr_div_pow2, <- N.shiftl_mul_pow2.
      apply N.bits_inj. intros i. rewrite N.land_spec.
      change UPPER_MASK with (2 ^ 31). rewrite N.pow2_bits_eqb.
      destruct (N.eqb_spec 31 i) as [<-|Ne].
      + rewrite N.shiftl_spec_high' by lia. rewrite N.shiftr_spec'. rewrite andb_true_r. reflexivity.
      + rewrite andb_false_r. destruct (N.lt_ge_cases i 31).
        * rewrite N.shiftl_spec_low by auto. reflexivity.
        * rewrite N.shiftl_spec_high' by auto. rewrite N.shiftr_spec'.
          apply word_bits; auto. lia. }
  rewrite Ey. rewrite N.shiftr_div_pow2. reflexivity.
Qed.

Lemma block_seq_words s x : block s -> mt_sequence s x -> forall n i, (i <= n)%nat -> is_word (x i).
Proof.
  intros [L W] [H0 HR] n. induction n as [n IH] using lt_wf_ind. intros i Hi.
  destruct (Nat.lt_ge_cases i 624) as [Hl|Hl].
  - specialize (H0 i Hl). rewrite Forall_forall in W. apply W. eapply nth_error_In; eauto.
  - replace i with (i - 624 + 624)%nat by lia. rewrite HR.
    assert (Wx : forall j, (j < i)%nat -> is_word (x j)) by (intros j Hj; apply (IH (i - 1)%nat); lia).
    apply word_lxor; [apply Wx; lia|].
    rewrite <- twv_spec by (apply Wx; lia). unfold twv.
    apply word_lxor. + apply word_shiftr, word_lor; apply word_land; apply Wx; lia.
    + destruct (N.odd _); auto with word.
Qed.

Lemma mt_sequence_rec s x : block s -> mt_sequence s x -> mt_rec x.
Proof.
  intros B H k. rewrite twv_spec. - apply H. - eapply block_seq_words; eauto.
Qed.

Lemma mt_sequence_exists s : block s -> exists x, mt_sequence s x.
Proof.
  intros B. exists (mtseq s). destruct B as [L W].
  assert (H0 : forall i, (i < 624)%nat -> nth i s 0 = mtseq s i).
  { intros i Hi. exact (mtseq_shift s L i 0%nat Hi). }
  assert (Hw : forall n i, (i <= n)%nat -> is_word (mtseq s i)).
  { intros n. induction n as [n IH] using lt_wf_ind. intros i Hi.
    destruct (Nat.lt_ge_cases i 624) as [Hl|Hl].
    - rewrite <- H0 by auto. rewrite Forall_forall in W. apply W, nth_In. lia.
    - replace i with (i - 624 + 624)%nat by lia. rewrite mtseq_rec by auto.
      assert (Wx : forall j, (j < i)%nat -> is_word (mtseq s j)) by (intros j Hj; apply (IH (i - 1)%nat); lia).
      apply word_lxor; [apply Wx; lia|]. unfold twv.
      apply word_lxor. + apply word_shiftr, word_lor; apply word_land; apply Wx; lia.
      + destruct (N.odd _); auto with word. }
  split.
  - intros i Hi. rewrite <- H0 by auto. apply nth_error_nth'. lia.
  - intros k. rewrite <- twv_spec by eauto. apply mtseq_rec; auto.
Qed.

Lemma mt_sequence_fun s x y : length s = 624%nat -> mt_sequence s x -> mt_sequence s y -> forall i, x i = y i.
Proof.
  intros L [X0 XR] [Y0 YR] i. induction i as [i IH] using lt_wf_ind.
  destruct (Nat.lt_ge_cases i 624) as [Hl|Hl].
  - specialize (X0 i Hl). specialize (Y0 i Hl). congruence.
  - replace i with (i - 624 + 624)%nat by lia. rewrite XR, YR. rewrite !IH by lia. reflexivity.
Qed.

(** ** One call *)
Lemma temper_word y : is_word y -> is_word (temper y).
Proof. intros H. unfold temper. auto 20 with word. Qed.

(** Generator [g] is about to return word number [n] of [x]. *)
Definition at_pos (x : nat -> N) (g : mtrand) (n : nat) : Prop :=
  block (st g) /\ idx g <= 624 /\
  exists base, n = (base + N.to_nat (idx g))%nat /\
    forall i, (i < 624)%nat -> nth i (st g) 0 = x (base + i)%nat.

Lemma mt_rec_shift x b : mt_rec x -> mt_rec (fun i => x (b + i)%nat).
Proof.
  intros R k. specialize (R (b + k)%nat). cbn beta.
  replace (b + (k + 624))%nat with (b + k + 624)%nat by lia.
  replace (b + (k + 397))%nat with (b + k + 397)%nat by lia.
  replace (b + (k + 1))%nat with (b + k + 1)%nat by lia. exact R.
Qed.

Lemma rand_int_at x g n : mt_rec x -> at_pos x g n ->
  exists g', rand_int g = Ret (temper (x n), g') /\ at_pos x g' (S n).
Proof.
  intros R (B & Hi & base & En & Hb). unfold rand_int.
  destruct (N.leb_spec state_size (idx g)) as [Hge|Hlt].
  - assert (Ei : idx g = 624) by (unfold state_size in Hge; lia).
    destruct (refill_ok (fun i => x (base + i)%nat) (st g)) as (a & E & S1).
    { now apply mt_rec_shift. }
    { split; [auto|]. split; [intros; lia|]. intros i Hi'. apply Hb; lia. }
    rewrite E. cbn [obind]. destruct S1 as (B' & H1 & _).
    destruct (block_get a (N.to_nat 0) B') as [E0 W0]; [lia|]. rewrite E0. cbn [obind].
    eexists; split.
    + rewrite (H1 (N.to_nat 0)) by lia. do 4 f_equal. lia.
    + split; [exact B'|]. cbn [idx st]. split; [now compute|].
      exists (base + 624)%nat. split. { rewrite En, Ei. change (N.to_nat (w32 (0 + 1))) with 1%nat. lia. }
      intros i Hi'. rewrite H1 by auto. f_equal; lia.
  - unfold state_size in Hlt. cbn [obind].
    destruct (block_get (st g) (N.to_nat (idx g)) B) as [E0 W0]; [lia|]. rewrite E0. cbn [obind].
    eexists; split.
    + rewrite Hb by lia. do 4 f_equal. lia.
    + split; [exact B|]. cbn [idx st].
      assert (Ew : w32 (idx g + 1) = idx g + 1).
      { unfold w32. apply N.mod_small. change (2 ^ 32) with 4294967296. lia. }
      rewrite Ew. split; [lia|]. exists base. split; [lia|exact Hb].
Qed.

Lemma rand_words_at x : mt_rec x -> forall k g n, at_pos x g n ->
  rand_words k g = Ret (map (fun i => temper (x i)) (seq n k)).
Proof.
  intros R. induction k as [|k IH]; intros g n H; [reflexivity|].
  cbn [rand_words]. destruct (rand_int_at x g n R H) as (g' & E & H').
  rewrite E. cbn [obind]. rewrite (IH g' (S n) H'). reflexivity.
Qed.

Lemma at_pos_seeded g x : block (st g) -> idx g = 624 -> mt_sequence (st g) x -> at_pos x g 624.
Proof.
  intros B E [H0 _]. split; [auto|]. split; [lia|]. exists 0%nat. split; [lia|].
  intros i Hi. apply nth_error_nth. apply H0; auto.
Qed.

(** Any typed state: either at a position, or with an index above 624, which
    behaves as 624. *)
Lemma rand_int_typed g : mt_typed g -> exists w g', rand_int g = Ret (w, g') /\ is_word w /\ mt_typed g'.
Proof.
  intros (L & W & I).
  set (g1 := {| st := st g; idx := N.min (idx g) 624 |}).
  assert (E1 : rand_int g = rand_int g1).
  { unfold rand_int, g1; cbn [st idx]. unfold state_size.
    destruct (N.leb_spec 624 (idx g)) as [Hl|Hl].
    - rewrite N.min_r by auto. reflexivity.
    - rewrite N.min_l by lia. destruct (N.leb_spec 624 (idx g)); [lia|]. reflexivity. }
  assert (B : block (st g)) by (split; auto).
  destruct (mt_sequence_exists (st g) B) as (x & X).
  assert (P : at_pos x g1 (N.to_nat (N.min (idx g) 624))).
  { unfold g1. split; [exact B|]. cbn [idx st]. split; [lia|]. exists 0%nat. split; [lia|].
    intros i Hi. apply nth_error_nth. apply X; auto. }
  destruct (rand_int_at x g1 _ (mt_sequence_rec _ _ B X) P) as (g' & E & P').
  exists (temper (x (N.to_nat (N.min (idx g) 624)))), g'. rewrite E1. split; [exact E|]. split.
  - apply temper_word. eapply block_seq_words; eauto.
  - destruct P' as (B' & I' & _). destruct B'. repeat split; auto.
    unfold is_word. change (2 ^ 32) with 4294967296. lia.
Qed.

Lemma mt_step_typed g o : mt_typed g -> mt_op_ok o ->
  exists out g', mt_step g o = Ret (out, g') /\ Forall is_word out /\ mt_typed g'.
Proof.
  intros T Ho. destruct o as [s|l|l i|]; cbn [mt_step mt_op_ok] in *.
  - destruct (seed_word_gen g s (proj1 T) Ho) as (g' & E & L & I & _ & W & _).
    rewrite E. cbn [obind]. do 2 eexists; split; [reflexivity|]. split; [constructor|].
    repeat split; auto. rewrite I. reflexivity.
  - destruct Ho as [Hne Hw]. destruct (seed_array_ok g l (proj1 T) Hne Hw) as (g' & E & [L W] & I & _).
    rewrite E. cbn [obind]. do 2 eexists; split; [reflexivity|]. split; [constructor|].
    repeat split; auto. rewrite I. reflexivity.
  - do 2 eexists; split; [reflexivity|]. split; [constructor|]. exact Ho.
  - destruct (rand_int_typed g T) as (w & g' & E & Hw & T'). rewrite E. cbn [obind].
    do 2 eexists; split; [reflexivity|]. split; auto.
Qed.

Lemma mt_run_typed l : forall g, mt_typed g -> Forall mt_op_ok l ->
  exists out g', mt_run g l = Ret (out, g') /\ Forall is_word out /\ mt_typed g'.
Proof.
  induction l as [|o t IH]; intros g T H; cbn [mt_run].
  - do 2 eexists; split; [reflexivity|]. split; [constructor|auto].
  - inversion H; subst. destruct (mt_step_typed g o T) as (out & g1 & E & Ho & T1); auto.
    rewrite E. cbn [obind]. destruct (IH g1 T1) as (outs & g2 & E2 & Ho2 & T2); auto.
    rewrite E2. cbn [obind]. do 2 eexists; split; [reflexivity|]. split; [apply Forall_app; auto|auto].
Qed.

Lemma seed_empty_undef g : length (st g) = 624%nat -> seed_array g [] = Undef.
Proof.
  intros L. unfold seed_array.
  destruct (seed_word_gen g 19650218 L) as (g0 & E0 & L0 & _); [reflexivity|].
  rewrite E0. cbn [obind length]. change (Nat.max 624 0) with 624%nat.
  unfold orepeat. cbn [oloop].
  unfold mix1 at 1. rewrite (oget_ret (st g0) _ 0) by lia. cbn [obind].
  rewrite (oget_ret (st g0) _ 0) by lia. reflexivity.
Qed.

(** ** Recurrence from any seeding *)
Lemma stream_after_seed g x k : block (st g) -> idx g = 624 -> mt_sequence (st g) x ->
  rand_words k g = Ret (map (fun i => temper (x i)) (seq 624 k)).
Proof.
  intros B I X. apply rand_words_at. - eapply mt_sequence_rec; eauto. - now apply at_pos_seeded.
Qed.
