(** Lemmas for C06/C10: no output bit of the generator is 1 for ever, so the loop of randInt(n) ends.
    The bits of the sequence obey one linear recurrence over the two-element field; it is derived by
    eliminating the other bits, and has an odd number of terms. *)
From Coq Require Import List ZArith NArith Bool Lia Arith.
From Verif Require Import Base MTModel MTSpec MTProofs MTProofs2 MTInverse.
Import ListNotations.
Open Scope nat_scope.

(** Linear operators on bit sequences: sums of shifts. *)
Inductive lin := L0 | L1 | LS (k : nat) (p : lin) | LX (p q : lin).
Fixpoint app (p : lin) (f : nat -> bool) (t : nat) : bool :=
  match p with L0 => false | L1 => f t | LS k p => app p f (t + k) | LX p q => xorb (app p f t) (app q f t) end.
Fixpoint appN (p : lin) (f : nat -> N) (t : nat) : N :=
  match p with L0 => 0%N | L1 => f t | LS k p => appN p f (t + k) | LX p q => N.lxor (appN p f t) (appN q f t) end.
(** the parity of the number of terms, and the largest shift *)
Fixpoint par (p : lin) : bool := match p with L0 => false | L1 => true | LS _ p => par p | LX p q => xorb (par p) (par q) end.
Fixpoint deg (p : lin) : nat := match p with L0 => 0 | L1 => 0 | LS k p => k + deg p | LX p q => Nat.max (deg p) (deg q) end.

Lemma app_ext p : forall f g t, (forall s, f s = g s) -> app p f t = app p g t.
Proof. induction p as [| |k p IH|p IH q IH']; intros f g t E; cbn [app]; auto. now rewrite (IH f g), (IH' f g). Qed.
Lemma app_shift p : forall f k t, app p (fun s => f (s + k)) t = app p f (t + k).
Proof. induction p as [| |j p IH|p IH q IH']; intros f k t; cbn [app]; auto. - rewrite IH. f_equal. lia. - now rewrite IH, IH'. Qed.
Lemma app_xor p : forall f g t, app p (fun s => xorb (f s) (g s)) t = xorb (app p f t) (app p g t).
Proof. induction p as [| |j p IH|p IH q IH']; intros f g t; cbn [app]; auto. rewrite IH, IH'. destruct (app p f t), (app p g t), (app q f t), (app q g t); reflexivity. Qed.
Lemma app_false p : forall t, app p (fun _ => false) t = false.
Proof. induction p as [| |j p IH|p IH q IH']; intros t; cbn [app]; auto. now rewrite IH, IH'. Qed.
Lemma app_comm p q : forall f t, app p (app q f) t = app q (app p f) t.
Proof.
  induction p as [| |j p IH|p IH r IH']; intros f t; cbn [app].
  - transitivity (app q (fun _ => false) t); [symmetry; apply app_false|apply app_ext; reflexivity].
  - apply app_ext. reflexivity.
  - rewrite IH, <- app_shift. apply app_ext. reflexivity.
  - rewrite IH, IH', <- app_xor. apply app_ext. reflexivity.
Qed.
Lemma app_true p : forall f t, (forall s, s <= deg p -> f (t + s) = true) -> app p f t = par p.
Proof.
  induction p as [| |j p IH|p IH q IH']; intros f t H; cbn [app par deg] in *.
  - reflexivity. - specialize (H 0). rewrite Nat.add_0_r in H. apply H. lia.
  - apply IH. intros s Hs. rewrite <- Nat.add_assoc. apply H. lia.
  - rewrite IH, IH'; [reflexivity| |]; intros s Hs; apply H; lia.
Qed.
Lemma appN_bit p : forall f t i, N.testbit (appN p f t) i = app p (fun s => N.testbit (f s) i) t.
Proof. induction p as [| |j p IH|p IH q IH']; intros f t i; cbn [app appN]; auto. now rewrite N.lxor_spec, IH, IH'. Qed.

Lemma lxor4 a b c d : N.lxor (N.lxor a b) (N.lxor c d) = N.lxor (N.lxor a c) (N.lxor b d).
Proof. apply N.bits_inj. intros i. rewrite !N.lxor_spec. destruct (N.testbit a i), (N.testbit b i), (N.testbit c i), (N.testbit d i); reflexivity. Qed.
Lemma xr_lin k a b : N.lxor (N.lxor a b) (N.shiftr (N.lxor a b) k) = N.lxor (N.lxor a (N.shiftr a k)) (N.lxor b (N.shiftr b k)).
Proof. rewrite N.shiftr_lxor. apply lxor4. Qed.
Lemma xl_lin k m a b : N.lxor (N.lxor a b) (N.land (N.shiftl (N.lxor a b) k) m) = N.lxor (N.lxor a (N.land (N.shiftl a k) m)) (N.lxor b (N.land (N.shiftl b k) m)).
Proof.
  rewrite N.shiftl_lxor. replace (N.land (N.lxor (N.shiftl a k) (N.shiftl b k)) m) with (N.lxor (N.land (N.shiftl a k) m) (N.land (N.shiftl b k) m)); [apply lxor4|].
  apply N.bits_inj. intros i. rewrite !N.lxor_spec, !N.land_spec, N.lxor_spec. destruct (N.testbit (N.shiftl a k) i), (N.testbit (N.shiftl b k) i), (N.testbit m i); reflexivity.
Qed.
Lemma temper_lin a b : mt_temper (N.lxor a b) = N.lxor (mt_temper a) (mt_temper b).
Proof. unfold mt_temper. cbv zeta. rewrite (xr_lin 11), (xl_lin 7), (xl_lin 15), (xr_lin 18). reflexivity. Qed.
Lemma temper_appN p : forall z t, mt_temper (appN p z t) = appN p (fun s => mt_temper (z s)) t.
Proof. induction p as [| |j p IH|p IH q IH']; intros z t; cbn [appN]; auto. now rewrite temper_lin, IH, IH'. Qed.

(** The bits of the twist. *)
Lemma joined_bit u v j : N.testbit (2 ^ 31 * (u / 2 ^ 31) + v mod 2 ^ 31) j = if (j <? 31)%N then N.testbit v j else N.testbit u j.
Proof.
  set (y := (_ + _)%N). assert (V : (v mod 2 ^ 31 < 2 ^ 31)%N) by (apply N.mod_lt; discriminate).
  destruct (N.ltb_spec j 31) as [H|H].
  - rewrite <- (N.mod_pow2_bits_low y 31 j H), <- (N.mod_pow2_bits_low v 31 j H). f_equal. unfold y. symmetry. apply (N.mod_unique _ _ (u / 2 ^ 31)); [exact V|reflexivity].
  - replace j with (j - 31 + 31)%N by lia. rewrite <- !N.div_pow2_bits. f_equal. unfold y. symmetry. apply (N.div_unique _ _ _ (v mod 2 ^ 31)); [exact V|reflexivity].
Qed.
Definition abit (i : nat) : bool := N.testbit 0x9908b0df (N.of_nat i).
Lemma twist_bit u v i : N.testbit (mt_twist u v) i = xorb (if (i <? 30)%N then N.testbit v (N.succ i) else N.testbit u (N.succ i)) (N.testbit v 0 && N.testbit 0x9908b0df i).
Proof.
  unfold mt_twist. cbv zeta. set (y := (_ + _)%N). rewrite N.lxor_spec. f_equal.
  - rewrite <- N.div2_div, N.div2_spec, N.shiftr_spec by lia. replace (i + 1)%N with (N.succ i) by lia. unfold y. rewrite joined_bit. destruct (N.ltb_spec (N.succ i) 31), (N.ltb_spec i 30); try reflexivity; lia.
  - rewrite <- N.bit0_odd. unfold y. rewrite joined_bit. cbn [N.ltb N.compare]. destruct (N.testbit v 0); [reflexivity|apply N.bits_0].
Qed.

Definition LT (p : lin) : lin := LX (LS 624 p) (LS 397 p).
Fixpoint LR (i : nat) : lin := match i with 0 => L1 | S i => LX (LT (LR i)) (if abit i then LS (S i) L1 else L0) end.
Definition LP (p : lin) : lin := LX (LT p) (LS 31 L1).
Lemma LR_S i : LR (S i) = LX (LT (LR i)) (if abit i then LS (S i) L1 else L0).
Proof. reflexivity. Qed.
Lemma par_LT p : par (LT p) = false.
Proof. cbn [LT par]. apply xorb_nilpotent. Qed.
Lemma par_LP p : par (LP p) = true.
Proof. unfold LP. cbn [par]. rewrite par_LT. reflexivity. Qed.
Lemma deg_LR i : deg (LR i) <= 624 * i.
Proof.
  induction i as [|i IH]; [apply Nat.le_0_l|]. rewrite LR_S. set (p := LR i) in *. clearbody p. unfold LT. cbn [deg].
  assert (deg (if abit i then LS (S i) L1 else L0) <= S i) by (destruct (abit i); cbn [deg]; lia). lia.
Qed.
Lemma deg_LP p : deg (LP p) <= Nat.max (624 + deg p) 31.
Proof. unfold LP, LT. cbn [deg]. lia. Qed.
Lemma app_LP p f t : app (LP p) f t = xorb (xorb (app p f (t + 624)) (app p f (t + 397))) (f (t + 31)).
Proof. reflexivity. Qed.
Lemma app_LR_S i f t : app (LR (S i)) f t = xorb (xorb (app (LR i) f (t + 624)) (app (LR i) f (t + 397))) (f (t + S i) && abit i).
Proof. rewrite LR_S. unfold LT. cbn [app]. f_equal. destruct (abit i); cbn [app]; [now rewrite andb_true_r|now rewrite andb_false_r]. Qed.

Section Bits.
Variable z : nat -> N.
Hypothesis rec : recur z.
Hypothesis words : forall k, is_word (z k).
Definition X (i k : nat) : bool := N.testbit (z k) (N.of_nat i).
Definition TX (i k : nat) : bool := xorb (X i (k + 624)) (X i (k + 397)).
Lemma TX_twist i k : TX i k = N.testbit (mt_twist (z k) (z (k + 1))) (N.of_nat i).
Proof. unfold TX, X. rewrite rec, N.lxor_spec. destruct (N.testbit (z (k + 397)) (N.of_nat i)), (N.testbit (mt_twist (z k) (z (k + 1))) (N.of_nat i)); reflexivity. Qed.
Lemma low_bits i k : i < 30 -> X (S i) (k + 1) = xorb (TX i k) (X 0 (k + 1) && abit i).
Proof.
  intros H. rewrite TX_twist, twist_bit. destruct (N.ltb_spec (N.of_nat i) 30); [|lia]. unfold X, abit. rewrite Nat2N.inj_succ. change (N.of_nat 0) with 0%N.
  destruct (N.testbit (z (k + 1)) (N.succ (N.of_nat i))), (N.testbit (z (k + 1)) 0 && N.testbit 2567483615 (N.of_nat i)); reflexivity.
Qed.
Lemma bit_31 k : X 31 k = xorb (TX 30 k) (X 0 (k + 1) && abit 30).
Proof.
  rewrite TX_twist, twist_bit. change (N.of_nat 30 <? 30)%N with false. cbv iota. change (N.succ (N.of_nat 30)) with 31%N. unfold X, abit. change (N.of_nat 0) with 0%N. change (N.of_nat 31) with 31%N.
  destruct (N.testbit (z k) 31), (N.testbit (z (k + 1)) 0 && N.testbit 2567483615 (N.of_nat 30)); reflexivity.
Qed.
Lemma bit_0 k : TX 31 k = X 0 (k + 1).
Proof.
  rewrite TX_twist, twist_bit. change (N.of_nat 31 <? 30)%N with false. cbv iota. change (N.succ (N.of_nat 31)) with 32%N. replace (N.testbit (z k) 32) with false by (symmetry; apply (proj1 (word_bits _) (words k)); lia).
  unfold X. change (N.testbit 0x9908b0df (N.of_nat 31)) with true. rewrite andb_true_r. change (N.of_nat 0) with 0%N. destruct (N.testbit (z (k + 1)) 0); reflexivity.
Qed.
(** the bits up to 30, from bit 0 *)
Lemma bits_LR i : i <= 30 -> forall k, X i (k + i) = app (LR i) (X 0) k.
Proof.
  induction i as [|i IH]; intros H k; [cbn [LR app]; f_equal; lia|]. rewrite app_LR_S. replace (k + S i) with (k + i + 1) by lia. rewrite low_bits by lia.
  unfold TX. replace (k + i + 624) with (k + 624 + i) by lia. replace (k + i + 397) with (k + 397 + i) by lia. rewrite !IH by lia. reflexivity.
Qed.
Lemma bit_31_LR k : X 31 (k + 30) = app (LR 31) (X 0) k.
Proof.
  rewrite bit_31, (app_LR_S 30). unfold TX. replace (k + 30 + 624) with (k + 624 + 30) by lia. replace (k + 30 + 397) with (k + 397 + 30) by lia.
  rewrite !bits_LR by lia. replace (k + 30 + 1) with (k + 31) by lia. reflexivity.
Qed.
(** the operator, and what is known of it *)
Lemma the_operator : exists r, deg r <= 624 * 31 /\ forall k, X 31 (k + 30) = app r (X 0) k.
Proof. exists (LR 31). split; [apply deg_LR|exact bit_31_LR]. Qed.
Variable r : lin.
Hypothesis deg_r : deg r <= 624 * 31.
Hypothesis r_31 : forall k, X 31 (k + 30) = app r (X 0) k.
Lemma bit_0_LP k : app (LP r) (X 0) k = false.
Proof.
  rewrite app_LP, <- !r_31. replace (k + 624 + 30) with (k + 30 + 624) by lia. replace (k + 397 + 30) with (k + 30 + 397) by lia. fold (TX 31 (k + 30)). rewrite bit_0. replace (k + 30 + 1) with (k + 31) by lia. apply xorb_nilpotent.
Qed.
Lemma bits_LP i k : i < 32 -> app (LP r) (X i) (k + 30) = false.
Proof.
  intros H. assert (G : forall p, app (LP r) (app p (X 0)) k = false). { intros p. rewrite app_comm, <- (app_false p k). apply app_ext. intros s. apply bit_0_LP. }
  destruct (Nat.eq_dec i 31) as [->|N].
  - rewrite <- app_shift, <- (G r). apply app_ext. intros s. apply r_31.
  - rewrite <- app_shift, <- (G (LS (30 - i) (LR i))). apply app_ext. intros s. cbn [app]. rewrite <- bits_LR by lia. f_equal. lia.
Qed.
Lemma all_LP k : appN (LP r) z (k + 30) = 0%N.
Proof.
  apply N.bits_inj. intros i. rewrite N.bits_0, appN_bit. destruct (N.lt_ge_cases i 32) as [H|H].
  - rewrite <- (bits_LP (N.to_nat i) k) by lia. apply app_ext. intros s. unfold X. now rewrite N2Nat.id.
  - rewrite <- (app_false (LP r) (k + 30)). apply app_ext. intros s. apply (proj1 (word_bits _) (words s)). exact H.
Qed.
Lemma not_all_true i k : ~ forall s, s < 624 * 32 + 31 -> N.testbit (mt_temper (z (k + s))) i = true.
Proof.
  intros H. assert (E : app (LP r) (fun s => N.testbit (mt_temper (z s)) i) (k + 30) = true).
  { rewrite <- (par_LP r). apply app_true. intros s Hs. replace (k + 30 + s) with (k + (30 + s)) by lia. apply H. pose proof (deg_LP r). lia. }
  rewrite <- (appN_bit (LP r) (fun s => mt_temper (z s))), <- temper_appN, all_LP in E. rewrite (N.bits_0 i : N.testbit (mt_temper 0) i = false) in E. discriminate.
Qed.
End Bits.
