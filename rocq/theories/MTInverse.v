(** The twister runs backwards: its state is determined by 624 consecutive outputs. *)
From Coq Require Import List ZArith NArith Bool Lia Arith.
From Verif Require Import Base MTModel MTSpec MTProofs MTProofs2.
Import ListNotations.
Open Scope N_scope.

(** ** The tempering can be undone *)
Lemma lxor_eq0 x y : N.lxor x y = 0 -> x = y.
Proof. apply N.lxor_eq. Qed.
Lemma right_inj k x y : 0 < k -> N.lxor x (N.shiftr x k) = N.lxor y (N.shiftr y k) -> x = y.
Proof.
  intros K E. apply lxor_eq0. set (d := N.lxor x y). assert (D : d = N.shiftr d k).
  { apply lxor_eq0. unfold d. rewrite N.shiftr_lxor. apply (f_equal (fun z => N.lxor z (N.lxor y (N.shiftr y k)))) in E. rewrite N.lxor_nilpotent in E. rewrite <- E. apply N.bits_inj. intros i. rewrite !N.lxor_spec. destruct (N.testbit x i), (N.testbit y i), (N.testbit (N.shiftr x k) i), (N.testbit (N.shiftr y k) i); reflexivity. }
  destruct (N.eq_dec d 0) as [Z|Z]; [exact Z|exfalso]. rewrite N.shiftr_div_pow2 in D. assert (d / 2 ^ k < d); [|lia]. apply N.div_lt; [lia|]. apply N.pow_gt_1; lia.
Qed.
Lemma left_inj k m x y : 0 < k -> N.lxor x (N.land (N.shiftl x k) m) = N.lxor y (N.land (N.shiftl y k) m) -> x = y.
Proof.
  intros K E. apply N.bits_inj. intros i. induction i as [i IH] using (well_founded_induction N.lt_wf_0). apply (f_equal (fun z => N.testbit z i)) in E. rewrite !N.lxor_spec, !N.land_spec in E. destruct (N.lt_ge_cases i k) as [L|L].
  - rewrite !N.shiftl_spec_low in E by exact L. cbn [andb] in E. now rewrite !xorb_false_r in E.
  - rewrite !N.shiftl_spec_high' in E by exact L. rewrite (IH (i - k)) in E by lia. destruct (N.testbit x i), (N.testbit y i), (N.testbit y (i - k) && N.testbit m i); auto; discriminate.
Qed.
Lemma temper_inj x y : mt_temper x = mt_temper y -> x = y.
Proof.
  unfold mt_temper. cbv zeta. intros E. apply right_inj in E; [|reflexivity]. apply left_inj in E; [|reflexivity]. apply left_inj in E; [|reflexivity]. now apply right_inj in E.
Qed.

(** ** So can the twist *)
Lemma twist_arg u v : is_word u -> 2 ^ 31 * (u / 2 ^ 31) + v mod 2 ^ 31 < 2 ^ 32.
Proof.
  unfold is_word. intros U. assert (u / 2 ^ 31 < 2) by (apply N.div_lt_upper_bound; [discriminate|exact U]). assert (v mod 2 ^ 31 < 2 ^ 31) by (apply N.mod_lt; discriminate). change (2 ^ 32) with (2 ^ 31 * 2). nia.
Qed.
Lemma twist_top u v : is_word u -> N.testbit (mt_twist u v) 31 = N.odd (2 ^ 31 * (u / 2 ^ 31) + v mod 2 ^ 31).
Proof.
  intros U. pose proof (twist_arg u v U) as A. unfold mt_twist. set (y := _ + _) in *. cbv zeta. rewrite N.lxor_spec. assert (B : N.testbit (y / 2) 31 = false).
  { replace (y / 2) with ((y / 2) mod 2 ^ 31); [apply N.mod_pow2_bits_high; lia|]. apply N.mod_small. apply N.div_lt_upper_bound; [discriminate|exact A]. }
  rewrite B. destruct (N.odd y); reflexivity.
Qed.
Lemma twist_inj u v u' v' : is_word u -> is_word u' -> mt_twist u v = mt_twist u' v' -> u / 2 ^ 31 = u' / 2 ^ 31 /\ v mod 2 ^ 31 = v' mod 2 ^ 31.
Proof.
  intros U U' E. pose proof (f_equal (fun z => N.testbit z 31) E) as T. cbv beta in T. rewrite !twist_top in T by assumption. pose proof (twist_arg u v U) as A. pose proof (twist_arg u' v' U') as A'.
  unfold mt_twist in E. cbv zeta in E. set (y := 2 ^ 31 * (u / 2 ^ 31) + v mod 2 ^ 31) in *. set (y' := 2 ^ 31 * (u' / 2 ^ 31) + v' mod 2 ^ 31) in *. rewrite T in E.
  assert (Eh : y / 2 = y' / 2). { apply (f_equal (fun z => N.lxor z (if N.odd y' then 0x9908b0df else 0))) in E. now rewrite !N.lxor_assoc, N.lxor_nilpotent, !N.lxor_0_r in E. }
  assert (Ey : y = y'). { rewrite (N.div2_odd y), (N.div2_odd y'), !N.div2_div, Eh, T. reflexivity. }
  assert (M : v mod 2 ^ 31 < 2 ^ 31) by (apply N.mod_lt; discriminate). assert (M' : v' mod 2 ^ 31 < 2 ^ 31) by (apply N.mod_lt; discriminate).
  unfold y, y' in Ey. apply (N.div_mod_unique (2 ^ 31)) in Ey; auto.
Qed.
Lemma twist_ext u v u' v' : u / 2 ^ 31 = u' / 2 ^ 31 -> v mod 2 ^ 31 = v' mod 2 ^ 31 -> mt_twist u v = mt_twist u' v'.
Proof. intros A B. unfold mt_twist. now rewrite A, B. Qed.
Lemma halves u v : u / 2 ^ 31 = v / 2 ^ 31 -> u mod 2 ^ 31 = v mod 2 ^ 31 -> u = v.
Proof. intros A B. rewrite (N.div_mod u (2 ^ 31)), (N.div_mod v (2 ^ 31)) by discriminate. now rewrite A, B. Qed.

(** ** Two sequences *)
Section Two.
Variables x y : nat -> N.
Definition recur (z : nat -> N) : Prop := forall k, z (k + 624)%nat = N.lxor (z (k + 397)%nat) (mt_twist (z k) (z (k + 1)%nat)).
(** the 19937 bits that matter at position a of the one and b of the other *)
Definition agree (a b : nat) : Prop := x a / 2 ^ 31 = y b / 2 ^ 31 /\ forall i, (1 <= i < 624)%nat -> x (a + i)%nat = y (b + i)%nat.
Lemma window a b : (forall i, (i < 624)%nat -> x (a + i)%nat = y (b + i)%nat) -> agree a b.
Proof. intros E. split; [|intros i Hi; apply E; lia]. specialize (E 0%nat ltac:(lia)). rewrite !Nat.add_0_r in E. now rewrite E. Qed.
Hypothesis Rx : recur x.
Hypothesis Ry : recur y.
Lemma agree_next a b : agree a b -> x (a + 624)%nat = y (b + 624)%nat.
Proof. intros [T E]. rewrite Rx, Ry. rewrite !E by lia. f_equal. apply twist_ext; [exact T|]. reflexivity. Qed.
Lemma agree_S a b : agree a b -> agree (S a) (S b).
Proof.
  intros A. pose proof (agree_next a b A) as N. destruct A as [T E]. split.
  - replace (S a) with (a + 1)%nat by lia. replace (S b) with (b + 1)%nat by lia. now rewrite E by lia.
  - intros i Hi. destruct (Nat.eq_dec i 623) as [->|]; [replace (S a + 623)%nat with (a + 624)%nat by lia; replace (S b + 623)%nat with (b + 624)%nat by lia; exact N|].
    replace (S a + i)%nat with (a + S i)%nat by lia. replace (S b + i)%nat with (b + S i)%nat by lia. apply E. lia.
Qed.
Lemma agree_on j : forall a b, agree a b -> agree (a + j) (b + j).
Proof. induction j as [|j IH]; intros a b A; [now rewrite !Nat.add_0_r|]. rewrite !Nat.add_succ_r. now apply agree_S, IH. Qed.
Lemma agree_all a b i : agree a b -> (1 <= i)%nat -> x (a + i)%nat = y (b + i)%nat.
Proof.
  intros A Hi. destruct (agree_on (i - 1) a b A) as [_ E]. specialize (E 1%nat ltac:(lia)). replace (a + (i - 1) + 1)%nat with (a + i)%nat in E by lia. replace (b + (i - 1) + 1)%nat with (b + i)%nat in E by lia. exact E.
Qed.
Hypothesis Wx : forall i, is_word (x i).
Hypothesis Wy : forall i, is_word (y i).
Lemma agree_back a b : agree (S a) (S b) -> agree a b.
Proof.
  intros [T E]. assert (N : x (a + 624)%nat = y (b + 624)%nat) by (replace (a + 624)%nat with (S a + 623)%nat by lia; replace (b + 624)%nat with (S b + 623)%nat by lia; apply E; lia).
  assert (M : x (a + 397)%nat = y (b + 397)%nat) by (replace (a + 397)%nat with (S a + 396)%nat by lia; replace (b + 397)%nat with (S b + 396)%nat by lia; apply E; lia).
  rewrite Rx, Ry, M in N. assert (W : mt_twist (x a) (x (a + 1)%nat) = mt_twist (y b) (y (b + 1)%nat)).
  { apply (f_equal (N.lxor (y (b + 397)%nat))) in N. now rewrite <- !N.lxor_assoc, N.lxor_nilpotent, !N.lxor_0_l in N. }
  apply twist_inj in W; auto. destruct W as [W1 W2]. split; [exact W1|]. intros i Hi. destruct (Nat.eq_dec i 1) as [->|].
  - apply halves; [|exact W2]. replace (a + 1)%nat with (S a) by lia. replace (b + 1)%nat with (S b) by lia. exact T.
  - replace (a + i)%nat with (S a + (i - 1))%nat by lia. replace (b + i)%nat with (S b + (i - 1))%nat by lia. apply E. lia.
Qed.
Lemma agree_off j : forall a b, agree (a + j) (b + j) -> agree a b.
Proof. induction j as [|j IH]; intros a b A; [now rewrite !Nat.add_0_r in A|]. rewrite !Nat.add_succ_r in A. now apply IH, agree_back. Qed.
End Two.

Lemma map_seq_eq (f g : nat -> N) a b k : map f (seq a k) = map g (seq b k) <-> forall i, (i < k)%nat -> f (a + i)%nat = g (b + i)%nat.
Proof.
  revert a b. induction k as [|k IH]; intros a b; [split; [intros _ i Hi; lia|reflexivity]|]. cbn [seq map]. split.
  - intros E. injection E as E0 E1. intros [|i] Hi; [now rewrite !Nat.add_0_r|]. rewrite !Nat.add_succ_r. apply (proj1 (IH (S a) (S b)) E1). lia.
  - intros E. f_equal; [specialize (E 0%nat ltac:(lia)); now rewrite !Nat.add_0_r in E|]. apply IH. intros i Hi. specialize (E (S i) ltac:(lia)). now rewrite !Nat.add_succ_r in E.
Qed.
Lemma skip_map_seq (f : nat -> N) a j k : skipn j (map f (seq a (j + k))) = map f (seq (a + j) k).
Proof. rewrite seq_app, map_app. rewrite skipn_app. rewrite skipn_all2 by (rewrite map_length, seq_length; lia). rewrite map_length, seq_length, Nat.sub_diag. reflexivity. Qed.
Lemma Ret_inj (A : Type) (a b : A) : Ret a = Ret b -> a = b.
Proof. intros E. injection E. auto. Qed.
Lemma tl_map_seq (f : nat -> N) a k : (0 < k)%nat -> tl (map f (seq a k)) = map f (seq (S a) (k - 1)).
Proof. intros K. destruct k as [|k]; [lia|]. cbn [seq map tl]. now rewrite Nat.sub_succ, Nat.sub_0_r. Qed.
