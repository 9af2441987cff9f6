(** Decimal texts: what the layout of digits denotes, and that reading it gives the nearest double. *)
From Coq Require Import ZArith NArith Bool Ascii String List SpecFloat Reals Lia Lra.
From Flocq Require Import Core IEEE754.BinarySingleNaN.
From Verif Require Import Base Scalar B64Lib B64Ops RoundLib StreamModel StreamSpec DecModel.
Import ListNotations.
Local Open Scope Z_scope.

(** ** Lists of digits *)
Definition dlist (l : list Z) : Prop := Forall (fun d => 0 <= d <= 9) l.
Lemma fold_number l : forall a, fold_left (fun a d => 10 * a + d) l a = a * 10 ^ Z.of_nat (length l) + number l.
Proof.
  unfold number. induction l as [|d l IH]; intros a; cbn [fold_left length]; [cbn; lia|].
  rewrite (IH (10 * a + d)), (IH (10 * 0 + d)). rewrite Nat2Z.inj_succ, Z.pow_succ_r by lia. ring.
Qed.
Lemma number_app a b : number (a ++ b) = number a * 10 ^ Z.of_nat (length b) + number b.
Proof. unfold number at 1. rewrite fold_left_app. apply fold_number. Qed.
Lemma number_zeros k : number (repeat 0 k) = 0.
Proof. induction k; [reflexivity|]. change (repeat 0 (S k)) with ([0] ++ repeat 0 k). rewrite number_app, IHk. reflexivity. Qed.
Lemma digits_length n d : length (digits n d) = n.
Proof. revert d. induction n; intros d; cbn [digits]; [reflexivity|]. rewrite app_length, IHn. cbn. lia. Qed.
Lemma digits_dlist n d : dlist (digits n d).
Proof.
  revert d. induction n; intros d; cbn [digits]; [constructor|]. apply Forall_app. split; [apply IHn|]. constructor; [|constructor].
  pose proof (Z.mod_pos_bound d 10). lia.
Qed.
Lemma number_digits n : forall d, 0 <= d < 10 ^ Z.of_nat n -> number (digits n d) = d.
Proof.
  induction n; intros d B; cbn [digits]; [cbn in *; unfold number; cbn; lia|].
  rewrite number_app. cbn [length]. rewrite Nat2Z.inj_succ, Z.pow_succ_r in B by lia.
  rewrite IHn. { unfold number. cbn [fold_left]. pose proof (Z.div_mod d 10). lia. }
  split; [apply Z.div_pos; lia|]. apply Z.div_lt_upper_bound; lia.
Qed.
Lemma number_nonneg l : dlist l -> 0 <= number l.
Proof.
  induction 1 as [|d l D _ IH]; [reflexivity|]. change (d :: l) with ([d] ++ l). rewrite number_app.
  unfold number at 1. cbn [fold_left]. nia.
Qed.
Lemma drop_zeros_spec l : exists k, l = repeat 0 k ++ drop_zeros l.
Proof.
  induction l as [|d l [k IH]]; [exists O; reflexivity|]. cbn [drop_zeros]. destruct (Z.eqb_spec d 0) as [->|N].
  - exists (S k). cbn [repeat app]. now rewrite <- IH.
  - exists O. reflexivity.
Qed.
Lemma rev_repeat {A} (x : A) k : rev (repeat x k) = repeat x k.
Proof.
  induction k; [reflexivity|]. cbn [repeat rev]. rewrite IHk. clear. induction k; [reflexivity|]. cbn [repeat app]. now rewrite IHk.
Qed.
Lemma strip_spec l : exists k, l = strip l ++ repeat 0 k.
Proof.
  destruct (drop_zeros_spec (rev l)) as [k E]. exists k. unfold strip.
  apply (f_equal (@rev Z)) in E. rewrite rev_involutive, rev_app_distr, rev_repeat in E. exact E.
Qed.
Lemma strip_dlist l : dlist l -> dlist (strip l).
Proof. intros D. destruct (strip_spec l) as [k E]. rewrite E in D. apply Forall_app in D. tauto. Qed.

(** ** Characters *)
Lemma digit_chars d : 0 <= d <= 9 -> char_digit (digit_char d) = Some d.
Proof.
  intros D. assert (E : d = 0 \/ d = 1 \/ d = 2 \/ d = 3 \/ d = 4 \/ d = 5 \/ d = 6 \/ d = 7 \/ d = 8 \/ d = 9) by lia.
  decompose [or] E; subst d; reflexivity.
Qed.
Lemma digit_not d : 0 <= d <= 9 -> is_space (digit_char d) = false /\ Ascii.eqb (digit_char d) "-" = false /\ Ascii.eqb (digit_char d) "+" = false.
Proof.
  intros D. assert (E : d = 0 \/ d = 1 \/ d = 2 \/ d = 3 \/ d = 4 \/ d = 5 \/ d = 6 \/ d = 7 \/ d = 8 \/ d = 9) by lia.
  decompose [or] E; subst d; repeat split; reflexivity.
Qed.
Definition no_digit (t : text) : Prop := match t with [] => True | c :: _ => char_digit c = None end.
Lemma take_digits_ok l t : dlist l -> no_digit t -> take_digits (map digit_char l ++ t) = (l, t).
Proof.
  intros D N. induction D as [|d l B _ IH]; cbn [map app take_digits].
  - destruct t as [|c t]; [reflexivity|]. cbn [take_digits]. cbn in N. now rewrite N.
  - rewrite digit_chars by auto. now rewrite IH.
Qed.
(** What follows a number does not continue it. *)
Definition plain (t : text) : Prop := match t with [] => True | c :: _ => char_digit c = None /\ Ascii.eqb c "." = false /\ Ascii.eqb c "e" = false /\ Ascii.eqb c "E" = false end.
Lemma plain_no_digit t : plain t -> no_digit t.
Proof. destruct t; cbn; tauto. Qed.
Lemma ends_plain rest : ends rest -> plain rest.
Proof.
  intros [->|(c & r & -> & [->|[->|S]])]; cbn; auto.
  unfold is_space in S. unfold char_digit.
  assert (N : (N_of_ascii c = 32 \/ 9 <= N_of_ascii c <= 13)%N).
  { apply orb_true_iff in S. destruct S as [S|S]; [left; now apply N.eqb_eq|right]. apply andb_true_iff in S. destruct S as [A B]. apply N.leb_le in A, B. lia. }
  repeat split.
  - destruct (48 <=? N_of_ascii c)%N eqn:E; [apply N.leb_le in E; lia|reflexivity].
  - apply Ascii.eqb_neq. intros ->. cbn in N. lia.
  - apply Ascii.eqb_neq. intros ->. cbn in N. lia.
  - apply Ascii.eqb_neq. intros ->. cbn in N. lia.
Qed.
Lemma skip_blank_ pre t : blank pre -> (match t with [] => True | c :: _ => is_space c = false end) -> skip_space (pre ++ t) = t.
Proof.
  intros B N. induction pre as [|c pre IH]; cbn [app skip_space].
  - destruct t as [|c t]; [reflexivity|]. cbn [skip_space]. now rewrite N.
  - rewrite (B c) by (now left). apply IH. intros x I. apply B. now right.
Qed.

(** ** Number of digits *)
Lemma count_digits_ok fuel : forall z, 1 <= z < 2 ^ Z.of_nat (S fuel) -> 1 <= count_digits fuel z /\ 10 ^ (count_digits fuel z - 1) <= z < 10 ^ count_digits fuel z.
Proof.
  induction fuel as [|k IH]; intros z B; cbn [count_digits].
  - change (2 ^ Z.of_nat 1) with 2 in B. cbn. lia.
  - destruct (Z.ltb_spec z 10) as [L|L]; [cbn; lia|].
    assert (B' : 1 <= z / 10 < 2 ^ Z.of_nat (S k)).
    { split; [apply Z.div_le_lower_bound; lia|]. apply Z.div_lt_upper_bound; [lia|]. rewrite (Nat2Z.inj_succ (S k)), Z.pow_succ_r in B by lia. lia. }
    destruct (IH _ B') as (C & D1 & D2). split; [lia|]. replace (1 + count_digits k (z / 10) - 1) with (Z.succ (count_digits k (z / 10) - 1)) by lia.
    replace (1 + count_digits k (z / 10)) with (Z.succ (count_digits k (z / 10))) by lia. rewrite !Z.pow_succ_r by lia.
    pose proof (Z.div_mod z 10 ltac:(lia)). pose proof (Z.mod_pos_bound z 10 ltac:(lia)). lia.
Qed.
Lemma ndigits_ok z : 1 <= z -> 1 <= ndigits z /\ 10 ^ (ndigits z - 1) <= z < 10 ^ ndigits z.
Proof.
  intros L. apply count_digits_ok. split; auto. rewrite Nat2Z.inj_succ, Z2Nat.id by apply Z.log2_nonneg. apply Z.log2_spec. lia.
Qed.

(** ** Scanning a text with the parts of a number *)
Definition minus (s : bool) (t : text) : text := if s then "-"%char :: t else t.
Definition outcome_of (s : bool) (n x : Z) (rest : text) : option (spec_float * text) :=
  match nearest_double s n x with Some z => Some (z, rest) | None => None end.
Lemma take_sign_minus s d w t : 0 <= d <= 9 -> take_sign (minus s (map digit_char (d :: w) ++ t)) = (s, map digit_char (d :: w) ++ t).
Proof.
  intros D. destruct s; [reflexivity|]. cbn [minus map app take_sign]. destruct (digit_not d D) as (_ & -> & ->). reflexivity.
Qed.
Lemma scan_parts s pre w f (ex : option Z) rest : blank pre -> w <> [] -> dlist w -> dlist f -> plain rest ->
  scan_double (pre ++ minus s (map digit_char w ++ fraction f ++ match ex with Some x => exponent x | None => [] end) ++ rest) =
  outcome_of s (number (w ++ f)) (match ex with Some x => x | None => 0 end - Z.of_nat (length f)) rest.
Proof.
  intros B Nw Dw Df Pr. destruct w as [|d w]; [easy|]. pose proof Dw as Dw'. inversion Dw' as [|? ? D _]; subst.
  set (tail := match ex with Some x => exponent x | None => [] end ++ rest).
  assert (E : minus s (map digit_char (d :: w) ++ fraction f ++ match ex with Some x => exponent x | None => [] end) ++ rest =
     minus s (map digit_char (d :: w) ++ fraction f ++ tail)).
  { unfold tail. destruct s; cbn [minus app]; rewrite <- !app_assoc; reflexivity. }
  rewrite E. clear E. unfold scan_double. rewrite skip_blank_; auto.
  2: { destruct s; [reflexivity|]. cbn [minus map app]. apply digit_not; auto. }
  rewrite take_sign_minus by auto.
  assert (Pt : no_digit tail /\ match tail with c :: _ => Ascii.eqb c "." = false | [] => True end).
  { unfold tail. destruct ex as [x|]; [cbn; auto|]. cbn [app]. destruct rest; cbn in *; tauto. }
  destruct Pt as [Pt1 Pt2].
  rewrite take_digits_ok; auto.
  2: { destruct f; cbn [fraction app]; [exact Pt1|reflexivity]. }
  assert (F : match fraction f ++ tail with c :: r => if Ascii.eqb c "." then take_digits r else ([], fraction f ++ tail) | [] => ([], fraction f ++ tail) end = (f, tail)).
  { destruct f as [|f0 f]; cbn [fraction app].
    - destruct tail as [|c t]; [reflexivity|]. now rewrite Pt2.
    - cbn [Ascii.eqb Bool.eqb]. rewrite take_digits_ok; auto. }
  match goal with |- (let (_, _) := ?X in _) = _ => change X with (match fraction f ++ tail with c :: r => if Ascii.eqb c "." then take_digits r else ([], fraction f ++ tail) | [] => ([], fraction f ++ tail) end); rewrite F end.
  cbn [app]. unfold outcome_of.
  unfold tail. destruct ex as [x|].
  - unfold exponent. cbn [app]. cbn [Ascii.eqb Bool.eqb orb].
    set (n := Z.to_nat (Z.max 2 (ndigits (Z.abs x)))).
    assert (T : take_sign ((if x <? 0 then "-"%char else "+"%char) :: map digit_char (digits n (Z.abs x)) ++ rest) = (x <? 0, map digit_char (digits n (Z.abs x)) ++ rest)) by (destruct (x <? 0); reflexivity).
    rewrite T. rewrite take_digits_ok; [|apply digits_dlist|now apply plain_no_digit].
    assert (Ln : length (digits n (Z.abs x)) = n) by apply digits_length.
    destruct (digits n (Z.abs x)) as [|y l] eqn:Q; [cbn in Ln; lia|]. rewrite <- Q.
    rewrite number_digits; [|split; [lia|]].
    { replace (if x <? 0 then - Z.abs x else Z.abs x) with x by (destruct (Z.ltb_spec x 0); lia). reflexivity. }
    unfold n. rewrite Z2Nat.id by lia. destruct (Z.eq_dec x 0) as [->|Nx]; [cbn; lia|]. destruct (ndigits_ok (Z.abs x) ltac:(lia)) as (_ & _ & U).
    eapply Z.lt_le_trans; [exact U|]. apply Z.pow_le_mono_r; lia.
  - cbn [app]. destruct rest as [|c r]; [reflexivity|]. cbn in Pr. destruct Pr as (_ & _ & -> & ->). reflexivity.
Qed.

(** ** The value of a text *)
Local Open Scope R_scope.
Definition r10 : radix := Build_radix 10 eq_refl.
Definition p10 (x : Z) : R := bpow r10 x.
Lemma p10_plus a b : p10 (a + b) = p10 a * p10 b. Proof. apply bpow_plus. Qed.
Lemma p10_pos a : 0 < p10 a. Proof. apply bpow_gt_0. Qed.
Lemma p10_IZR k : (0 <= k)%Z -> IZR (10 ^ k) = p10 k.
Proof. intros K. exact (IZR_Zpower r10 k K). Qed.
Lemma p10_0 : p10 0 = 1. Proof. reflexivity. Qed.
Lemma p10_inv k : p10 (- k) = / p10 k. Proof. apply bpow_opp. Qed.
Lemma p10_le a b : (a <= b)%Z -> p10 a <= p10 b. Proof. apply bpow_le. Qed.
Lemma p10_lt a b : (a < b)%Z -> p10 a < p10 b. Proof. apply bpow_lt. Qed.
Definition dvalue (w f : list Z) (x : Z) : R := IZR (number (w ++ f)) * p10 (x - Z.of_nat (length f)).
Lemma dvalue_strip w f x : dvalue w (strip f) x = dvalue w f x.
Proof.
  destruct (strip_spec f) as [k E]. unfold dvalue. rewrite E at 3 4. rewrite app_assoc, (number_app _ (repeat 0%Z k)), number_zeros, app_length, repeat_length.
  rewrite Z.add_0_r, mult_IZR, p10_IZR by lia. rewrite Rmult_assoc, <- p10_plus. f_equal. f_equal. lia.
Qed.
Definition parts (prec : nat) (d x : Z) : list Z * list Z * option Z :=
  let ds := digits prec d in
  (if (-4 <=? x) && (x <? Z.of_nat prec) then
    if x <? 0 then ([0%Z], strip (repeat 0%Z (Z.to_nat (- x - 1)) ++ ds), None)
    else (firstn (Z.to_nat (x + 1)) ds, strip (skipn (Z.to_nat (x + 1)) ds), None)
  else (firstn 1 ds, strip (skipn 1 ds), Some x))%Z.
Lemma layout_parts prec d x : layout prec d x = let '(w, f, ex) := parts prec d x in map digit_char w ++ fraction f ++ match ex with Some x => exponent x | None => [] end.
Proof.
  unfold layout, parts. destruct (_ && _)%bool; [|reflexivity]. destruct (x <? 0)%Z; cbn [map app]; rewrite app_nil_r; reflexivity.
Qed.
Lemma parts_value prec d x : (1 <= prec)%nat -> (0 <= d < 10 ^ Z.of_nat prec)%Z ->
  let '(w, f, ex) := parts prec d x in w <> [] /\ dlist w /\ dlist f /\
  dvalue w f (match ex with Some x => x | None => 0%Z end) = IZR d * p10 (x - Z.of_nat prec + 1).
Proof.
  intros P D. unfold parts. pose proof (digits_dlist prec d) as Dl. pose proof (digits_length prec d) as Ln. pose proof (number_digits prec d D) as Nd.
  set (ds := digits prec d) in *. clearbody ds.
  assert (DF : forall k, dlist (firstn k ds) /\ dlist (skipn k ds)).
  { intros k. rewrite <- (firstn_skipn k ds) in Dl. now apply Forall_app in Dl. }
  assert (Ne : forall k, (0 < k)%nat -> firstn k ds <> []). { intros [|k] K; [lia|]. destruct ds; [cbn in Ln; lia|]. discriminate. }
  destruct ((-4 <=? x) && (x <? Z.of_nat prec))%Z%bool eqn:C; [apply andb_true_iff in C; destruct C as [C1 C2]; apply Z.leb_le in C1; apply Z.ltb_lt in C2; destruct (Z.ltb_spec x 0)|].
  - split; [discriminate|]. split; [repeat constructor; lia|]. assert (Dz : dlist (repeat 0%Z (Z.to_nat (- x - 1)) ++ ds)).
    { apply Forall_app. split; auto. apply Forall_forall. intros y I. apply repeat_spec in I. lia. }
    split; [now apply strip_dlist|]. rewrite dvalue_strip. unfold dvalue. cbn [app].
    change (0%Z :: repeat 0%Z (Z.to_nat (- x - 1)) ++ ds) with ((0%Z :: repeat 0%Z (Z.to_nat (- x - 1))) ++ ds). rewrite number_app.
    change (0%Z :: repeat 0%Z (Z.to_nat (- x - 1))) with (repeat 0%Z (S (Z.to_nat (- x - 1)))). rewrite number_zeros, Nd, app_length, repeat_length, Ln. replace (0 * 10 ^ Z.of_nat (length ds) + d)%Z with d by lia. f_equal. f_equal. lia.
  - split; [apply Ne; lia|]. split; [apply DF|]. split; [apply strip_dlist, DF|]. rewrite dvalue_strip. unfold dvalue. rewrite firstn_skipn, Nd, skipn_length, Ln. f_equal. f_equal. lia.
  - split; [apply Ne; lia|]. split; [apply DF|]. split; [apply strip_dlist, DF|]. rewrite dvalue_strip. unfold dvalue. rewrite firstn_skipn, Nd, skipn_length, Ln. f_equal. f_equal. lia.
Qed.
