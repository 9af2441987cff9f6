From Coq Require Import ZArith List Ascii Bool Lia ZifyBool.
From Verif Require Import Base IntStrModel IntStrSpec.
Import ListNotations.
Open Scope Z_scope.
Ltac Zify.zify_post_hook ::= Z.div_mod_to_equations.

Lemma digit_cases d : 0 <= d < 10 ->
  exists c, oget digit_chars (Z.to_nat d) = Ret c /\ digit_val c = Some d /\ c <> NUL /\ (0 < d -> c <> "0"%char).
Proof.
  intros H.
  assert (d = 0 \/ d = 1 \/ d = 2 \/ d = 3 \/ d = 4 \/ d = 5 \/ d = 6 \/ d = 7 \/ d = 8 \/ d = 9) as C by lia.
  repeat (destruct C as [->|C]; [eexists; split; [reflexivity|]; split; [reflexivity|]; split; [discriminate|]; try discriminate; lia|]).
  subst; eexists; split; [reflexivity|]; split; [reflexivity|]; split; discriminate.
Qed.

Lemma digits_val_app acc s t : digits_val acc (s ++ t) =
  match digits_val acc s with Some v => digits_val v t | None => None end.
Proof. revert acc; induction s as [|c s IH]; intros acc; simpl; auto. destruct (digit_val c); auto. Qed.

Definition nonul (s : list ascii) := Forall (fun c => c <> NUL) s.

(* contents after the loop: at index h the digits then what was there from [head]. *)
Lemma skipn_upd_lt {A} (l : list A) i j x : (i < j)%nat -> skipn j (upd l i x) = skipn j l.
Proof.
  revert i j; induction l as [|a l IH]; intros [|i] [|j] H; simpl; auto; try lia. apply IH; lia.
Qed.
Lemma skipn_upd_eq {A} (l : list A) i x : (i < length l)%nat -> skipn i (upd l i x) = x :: skipn (S i) l.
Proof.
  revert i; induction l as [|a l IH]; intros [|i] H; simpl in *; auto; try lia.
  rewrite IH by lia. reflexivity.
Qed.

Lemma oset_inv {A} (l l' : list A) i x : oset l i x = Ret l' -> (i < length l)%nat /\ l' = upd l i x.
Proof. unfold oset. destruct (Nat.ltb_spec i (length l)); intros E; inversion E; auto. Qed.

Lemma digit_loop_ok head : forall val buf,
  0 < val < 10 ^ Z.of_nat head -> (head <= length buf)%nat ->
  exists b h s, digit_loop head val buf = Ret (b, h) /\ length b = length buf /\ (h < head)%nat /\
    skipn h b = map Some s ++ skipn head buf /\ nonul s /\
    (exists c t, s = c :: t /\ c <> "0"%char) /\ digits_val 0 s = Some val /\
    val >= 10 ^ (Z.of_nat (head - h) - 1).
Proof.
  induction head as [|h IH]; intros val buf Hv Hl.
  - simpl in Hv. lia.
  - cbn [digit_loop].
    destruct (digit_cases (val mod 10)) as (c & Ec & Dc & Nc & Zc); [lia|].
    rewrite Ec. cbn [obind]. rewrite oset_ret by lia. cbn [obind].
    assert (Hpow : 10 ^ Z.of_nat (S h) = 10 * 10 ^ Z.of_nat h).
    { rewrite Nat2Z.inj_succ, Z.pow_succ_r; lia. }
    destruct (val / 10 =? 0) eqn:E.
    + exists (upd buf h (Some c)), h, [c]. rewrite upd_length. 
      split; [reflexivity|]. split; [reflexivity|]. split; [lia|]. split.
      { rewrite skipn_upd_eq by lia. reflexivity. }
      split; [constructor; auto; constructor|]. split; [exists c, []; split; auto; apply Zc; lia|].
      split; [cbn [digits_val]; rewrite Dc; f_equal; lia|]. replace (Z.of_nat (S h - h) - 1) with 0 by lia. simpl; lia.
    + destruct (IH (val / 10) (upd buf h (Some c))) as (b & h' & s & R & L & Hh & Sk & Ns & Hd & Dv & Hp).
      { split; [lia|]. rewrite Hpow in Hv. lia. } { rewrite upd_length; lia. }
      exists b, h', (s ++ [c]). split; [exact R|]. rewrite L, upd_length. split; [reflexivity|]. split; [lia|].
      split; [|split; [|split; [|split]]].
      * rewrite Sk, skipn_upd_eq by lia. rewrite map_app, <- app_assoc. reflexivity.
      * apply Forall_app; split; auto; constructor; auto; constructor.
      * destruct Hd as (c0 & t & -> & Hc0). exists c0, (t ++ [c]). auto.
      * rewrite digits_val_app, Dv. cbn [digits_val]. rewrite Dc. f_equal. lia.
      * replace (Z.of_nat (S h - h') - 1) with (Z.succ (Z.of_nat (h - h') - 1)) by lia.
        rewrite Z.pow_succ_r by lia. lia.
Qed.

Lemma read_cstr_ok s rest : nonul s -> read_cstr (map Some s ++ Some NUL :: rest) = Ret s.
Proof.
  induction 1 as [|c s Hc Hs IH]; simpl; [reflexivity|].
  destruct (Ascii.eqb_spec c NUL); [congruence|]. rewrite IH. reflexivity.
Qed.

Lemma do_int_to_string_ok val n : 
  0 <= val < 2 ^ 64 -> (21 <= n)%nat ->
  exists b h s, do_int_to_string val (repeat None n) n = Ret (b, h) /\ length b = n /\ 
    (n - 21 <= h < n)%nat /\ skipn h b = map Some s ++ [Some NUL] /\ nonul s /\ unsigned_numeral s val.
Proof.
  intros Hv Hn. destruct n as [|n]; [lia|].
  assert (Hlen : length (@repeat (option ascii) None (S n)) = S n) by apply repeat_length.
  unfold do_int_to_string, push_front at 1. rewrite oset_ret by lia. cbn [obind].
  remember (upd (repeat None (S n)) n (Some NUL)) as b0 eqn:Eb0.
  assert (Hb0 : length b0 = S n) by (subst; rewrite upd_length; auto).
  assert (Hs0 : skipn n b0 = [Some NUL]).
  { subst b0. rewrite skipn_upd_eq by lia. f_equal. rewrite skipn_all2; auto; lia. }
  destruct (val =? 0) eqn:E.
  - assert (val = 0) by lia; subst val. unfold push_front. destruct n as [|n]; [lia|].
    rewrite oset_ret by lia. cbn [obind].
    exists (upd b0 n (Some "0"%char)), n, ["0"%char]. rewrite upd_length.
    split; [reflexivity|]. split; [lia|]. split; [lia|]. split.
    { rewrite skipn_upd_eq by lia. rewrite Hs0. reflexivity. }
    split; [constructor; [discriminate|constructor]|]. split; [left; reflexivity|]. split; [discriminate|reflexivity].
  - destruct (digit_loop_ok n val b0) as (b & h & s & R & L & Hh & Sk & Ns & Hd & Dv & Hp).
    { split; [lia|]. apply Z.lt_le_trans with (10 ^ 20); [lia|]. apply Z.pow_le_mono_r; lia. } { lia. }
    exists b, h, s. split; [exact R|]. split; [lia|]. split.
    { split; [|lia]. destruct (Nat.le_gt_cases (S n - 21) h) as [|Hc]; [assumption|exfalso].
      assert (10 ^ 20 <= 10 ^ (Z.of_nat (n - h) - 1)) by (apply Z.pow_le_mono_r; lia). lia. }
    split; [rewrite Sk, Hs0; reflexivity|]. split; [exact Ns|].
    destruct Hd as (c & t & -> & Hc). split; [right; eauto|]. split; [discriminate|exact Dv].
Qed.

Lemma uint_to_string_ok val : 0 <= val < 2 ^ 64 ->
  exists s, uint_to_string val = Ret s /\ unsigned_numeral s val.
Proof.
  intros Hv. unfold uint_to_string. change (Z.to_nat (ul_max_digits + 1)) with 21%nat.
  destruct (do_int_to_string_ok val 21 Hv) as (b & h & s & R & L & Hh & Sk & Ns & U); [lia|].
  cbv zeta. rewrite R. cbn [obind]. rewrite Sk. rewrite read_cstr_ok by assumption. eauto.
Qed.

Lemma safe_abs_ok val : LONG_MIN <= val <= LONG_MAX -> safe_abs val = Ret (Z.abs val).
Proof.
  unfold safe_abs, LONG_MIN, LONG_MAX, slong, fits_long, LONG_MIN, LONG_MAX. intros H.
  destruct (0 <=? val) eqn:E; [f_equal; lia|].
  destruct (- (2 ^ 63 - 1) <=? val) eqn:E2.
  - replace ((- 2 ^ 63 <=? - val) && (- val <=? 2 ^ 63 - 1)) with true by lia. f_equal; lia.
  - assert (val = - 2 ^ 63) by lia. subst. vm_compute. reflexivity.
Qed.

Lemma int_to_string_ok val : LONG_MIN <= val <= LONG_MAX ->
  exists s, int_to_string val = Ret s /\ signed_numeral s val.
Proof.
  intros Hv. unfold int_to_string. change (Z.to_nat (ul_max_digits + 2)) with 22%nat.
  rewrite safe_abs_ok by assumption. cbv zeta. cbn [obind].
  destruct (do_int_to_string_ok (Z.abs val) 22) as (b & h & s & R & L & Hh & Sk & Ns & U);
    [unfold LONG_MIN, LONG_MAX in *; lia|lia|].
  rewrite R. cbn [obind]. destruct (val <? 0) eqn:E; cbn [obind].
  - destruct h as [|h]; [lia|]. cbn [push_front]. rewrite oset_ret by lia. cbn [obind].
    rewrite skipn_upd_eq by lia. rewrite Sk.
    change (Some "-"%char :: map Some s ++ [Some NUL]) with (map Some ("-"%char :: s) ++ [Some NUL]).
    rewrite read_cstr_ok by (constructor; [discriminate|assumption]).
    eexists; split; [reflexivity|]. right. split; [lia|]. exists s. split; [reflexivity|].
    replace (- val) with (Z.abs val) by lia. exact U.
  - rewrite Sk, read_cstr_ok by assumption. eexists; split; [reflexivity|]. left. split; [lia|].
    replace val with (Z.abs val) by lia. exact U.
Qed.

Lemma unsigned_numeral_fun s v w : unsigned_numeral s v -> unsigned_numeral s w -> v = w.
Proof. intros (_ & _ & A) (_ & _ & B). congruence. Qed.

Lemma signed_numeral_fun s v w : signed_numeral s v -> signed_numeral s w -> v = w.
Proof.
  intros [[P A]|[P (t & E & A)]] [[Q B]|[Q (t' & E' & B)]].
  - eapply unsigned_numeral_fun; eauto.
  - subst. destruct A as (_ & _ & A). simpl in A. discriminate.
  - subst. destruct B as (_ & _ & B). simpl in B. discriminate.
  - subst. inversion E'; subst. pose proof (unsigned_numeral_fun _ _ _ A B). lia.
Qed.

Lemma int_to_string_inj v w s : LONG_MIN <= v <= LONG_MAX -> LONG_MIN <= w <= LONG_MAX ->
  int_to_string v = Ret s -> int_to_string w = Ret s -> v = w.
Proof.
  intros Hv Hw E E'. destruct (int_to_string_ok v Hv) as (s1 & E1 & N1).
  destruct (int_to_string_ok w Hw) as (s2 & E2 & N2).
  rewrite E in E1; rewrite E' in E2. inversion E1; inversion E2; subst. eapply signed_numeral_fun; eauto.
Qed.
Lemma uint_to_string_inj v w s : 0 <= v < 2 ^ 64 -> 0 <= w < 2 ^ 64 ->
  uint_to_string v = Ret s -> uint_to_string w = Ret s -> v = w.
Proof.
  intros Hv Hw E E'. destruct (uint_to_string_ok v Hv) as (s1 & E1 & N1).
  destruct (uint_to_string_ok w Hw) as (s2 & E2 & N2).
  rewrite E in E1; rewrite E' in E2. inversion E1; inversion E2; subst. eapply unsigned_numeral_fun; eauto.
Qed.
