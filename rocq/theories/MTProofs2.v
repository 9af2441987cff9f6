(** Bounded integers and the text form of the generator. *)
From Coq Require Import List ZArith NArith Lia Bool Ascii Arith.
From Coq Require Import ZifyBool ZifyNat ZifyN.
From Verif Require Import Base MTModel MTSpec IntStrSpec MTProofs.
Import ListNotations.
Open Scope N_scope.

(** ** The mask *)
Definition smears (n m k : N) : Prop :=
  forall i, N.testbit m i = true <-> exists j, j < k /\ N.testbit n (i + j) = true.

Lemma smears_1 n : smears n n 1.
Proof.
  intros i. split.
  - intros H. exists 0. split; [lia|]. now rewrite N.add_0_r.
  - intros (j & Hj & H). replace (i + j) with i in H by lia. auto.
Qed.

Lemma smears_double n m k : smears n m k -> smears n (N.lor m (N.shiftr m k)) (2 * k).
Proof.
  intros S i. rewrite N.lor_spec, orb_true_iff, N.shiftr_spec', (S i), (S (i + k)). split.
  - intros [(j & Hj & H)|(j & Hj & H)].
    + exists j. split; [lia|auto].
    + exists (k + j). split; [lia|]. now rewrite N.add_assoc.
  - intros (j & Hj & H). destruct (N.lt_ge_cases j k).
    + left. exists j. auto.
    + right. exists (j - k). split; [lia|]. replace (i + k + (j - k)) with (i + j) by lia. auto.
Qed.

Lemma smear_ones n : is_word n -> smear n = N.ones (N.size n).
Proof.
  intros Hn.
  assert (S : smears n (smear n) 32).
  { unfold smear.
    change 32 with (2 * (2 * (2 * (2 * (2 * 1))))).
    apply smears_double. change (2 * (2 * (2 * (2 * 1)))) with 16 at 1.
    change 8 with (2 * (2 * (2 * 1))). apply smears_double.
    change (2 * (2 * (2 * 1))) with 8. change 4 with (2 * (2 * 1)). apply smears_double.
    change (2 * (2 * 1)) with 4. change 2 with (2 * 1). apply smears_double.
    apply smears_double. apply smears_1. }
  destruct (N.eq_dec n 0) as [->|Hz]; [reflexivity|].
  rewrite N.size_log2 by auto.
  assert (Hl : N.log2 n < 32) by (apply N.log2_lt_pow2; [lia|exact Hn]).
  apply N.bits_inj. intros i. apply eq_true_iff_eq. rewrite (S i).
  destruct (N.lt_ge_cases i (N.succ (N.log2 n))) as [Hi|Hi].
  - rewrite N.ones_spec_low by auto. split; auto. intros _.
    exists (N.log2 n - i). split; [lia|]. replace (i + (N.log2 n - i)) with (N.log2 n) by lia.
    now apply N.bit_log2.
  - rewrite N.ones_spec_high by auto. split; [|discriminate].
    intros (j & _ & H). rewrite N.bits_above_log2 in H by lia. discriminate.
Qed.

Lemma size_word n : is_word n -> N.size n <= 32.
Proof.
  intros Hn. destruct (N.eq_dec n 0) as [->|Hz]; [discriminate|].
  rewrite N.size_log2 by auto. assert (N.log2 n < 32) by (apply N.log2_lt_pow2; [lia|exact Hn]). lia.
Qed.

Lemma le_smear n : is_word n -> n <= smear n.
Proof.
  intros Hn. rewrite smear_ones by auto. rewrite N.ones_equiv. pose proof (N.size_gt n). lia.
Qed.

(** ** Counting *)
Lemma seq_app' a b c : seq a (b + c) = seq a b ++ seq (a + b) c.
Proof. apply seq_app. Qed.

Lemma count_block (P : N -> bool) (f : nat -> nat) m c :
  f 0%nat = 0%nat ->
  (forall j, (j < m)%nat -> f (S j) = (f j + if P (N.of_nat (c * m + j)) then 1 else 0)%nat) ->
  forall j, (j <= m)%nat -> length (filter P (map N.of_nat (seq (c * m) j))) = f j.
Proof.
  intros H0 HS. induction j as [|j IH]; intros Hj; [now rewrite H0|].
  rewrite seq_S, map_app, filter_app, app_length, IH by lia. rewrite HS by lia. f_equal.
  cbn [map filter]. destruct (P _); reflexivity.
Qed.

Lemma count_blocks P m (t : nat) :
  (forall c, length (filter P (map N.of_nat (seq (c * m) m))) = t) ->
  forall c, count_below (c * m) P = (c * t)%nat.
Proof.
  intros H. unfold count_below. induction c as [|c IH]; [reflexivity|].
  replace (S c * m)%nat with (c * m + m)%nat by lia.
  rewrite seq_app, map_app, filter_app, app_length, IH, Nat.add_0_l, H. lia.
Qed.

Lemma mod_block c m j : (j < m)%nat -> N.of_nat (c * m + j) mod N.of_nat m = N.of_nat j.
Proof.
  intros H. rewrite Nat2N.inj_add, Nat2N.inj_mul, N.add_comm, N.mod_add by lia.
  apply N.mod_small. lia.
Qed.

Lemma count_residue m r c : (r < m)%nat ->
  count_below (c * m) (fun w => w mod N.of_nat m =? N.of_nat r) = c.
Proof.
  intros Hr. rewrite (count_blocks _ m 1); [lia|]. intros c'.
  rewrite (count_block _ (fun j => if Nat.ltb r j then 1%nat else 0%nat) m c'); [| |intros j Hj|lia].
  - destruct (Nat.ltb_spec r m); lia.
  - reflexivity.
  - rewrite mod_block by auto. destruct (N.eqb_spec (N.of_nat j) (N.of_nat r)), (Nat.ltb_spec r (S j)), (Nat.ltb_spec r j); lia.
Qed.

Lemma count_le m r c : (r < m)%nat ->
  count_below (c * m) (fun w => w mod N.of_nat m <=? N.of_nat r) = (c * S r)%nat.
Proof.
  intros Hr. apply count_blocks. intros c'.
  rewrite (count_block _ (fun j => Nat.min j (S r)) m c'); [| |intros j Hj|lia].
  - lia.
  - reflexivity.
  - rewrite mod_block by auto. destruct (N.leb_spec (N.of_nat j) (N.of_nat r)); lia.
Qed.

Lemma count_below_ext k P Q : (forall w, P w = Q w) -> count_below k P = count_below k Q.
Proof.
  intros H. unfold count_below. f_equal. induction (map N.of_nat (seq 0 k)) as [|x l IH]; cbn [filter]; auto.
  rewrite H, IH. reflexivity.
Qed.

Lemma land_smear n w : is_word n -> N.land w (smear n) = w mod 2 ^ N.size n.
Proof. intros Hn. rewrite smear_ones by auto. apply N.land_ones. Qed.

Lemma split_words b : b <= 32 -> N.to_nat (2 ^ 32) = (N.to_nat (2 ^ (32 - b)) * N.to_nat (2 ^ b))%nat.
Proof.
  intros Hb. rewrite <- N2Nat.inj_mul, <- N.pow_add_r. f_equal. f_equal. lia.
Qed.

Lemma uniform_count n i : is_word n -> i <= n ->
  count_words (fun w => N.land w (smear n) =? i) = 2 ^ (32 - N.size n).
Proof.
  intros Hn Hi. unfold count_words.
  rewrite (count_below_ext _ _ (fun w => w mod N.of_nat (N.to_nat (2 ^ N.size n)) =? N.of_nat (N.to_nat i))).
  - rewrite (split_words (N.size n)) by (apply size_word; auto).
    rewrite count_residue. + apply N2Nat.id. + pose proof (N.size_gt n). lia.
  - intros w. rewrite land_smear, !N2Nat.id by auto. reflexivity.
Qed.

Lemma accepted_count n : is_word n ->
  count_words (fun w => N.land w (smear n) <=? n) = (n + 1) * 2 ^ (32 - N.size n).
Proof.
  intros Hn. unfold count_words.
  rewrite (count_below_ext _ _ (fun w => w mod N.of_nat (N.to_nat (2 ^ N.size n)) <=? N.of_nat (N.to_nat n))).
  - rewrite (split_words (N.size n)) by (apply size_word; auto).
    rewrite count_le. + rewrite Nat2N.inj_mul, N2Nat.id. lia. + pose proof (N.size_gt n). lia.
  - intros w. rewrite land_smear, !N2Nat.id by auto. reflexivity.
Qed.

Lemma accept_half n : is_word n -> 2 ^ 32 < 2 * count_words (fun w => N.land w (smear n) <=? n).
Proof.
  intros Hn. rewrite accepted_count by auto.
  replace (2 ^ 32) with (2 ^ (N.size n) * 2 ^ (32 - N.size n)).
  - rewrite N.mul_assoc. apply N.mul_lt_mono_pos_r; [apply N.neq_0_lt_0, N.pow_nonzero; lia|].
    destruct (N.eq_dec n 0) as [->|Hz]; [reflexivity|].
    pose proof (N.size_le n). lia.
  - rewrite <- N.pow_add_r. f_equal. pose proof (size_word n Hn). lia.
Qed.

(** ** The rejection loop *)
Definition accepts (n w : N) : bool := N.land w (smear n) <=? n.

Lemma rand_int_below_sound fuel : forall n g i g',
  rand_int_below fuel n g = Ret (Some (i, g')) ->
  exists rej w, rand_words (length rej + 1) g = Ret (rej ++ [w]) /\ (length rej < fuel)%nat /\
    Forall (fun r => accepts n r = false) rej /\ accepts n w = true /\ i = N.land w (smear n).
Proof.
  induction fuel as [|f IH]; intros n g i g' H; [discriminate|].
  cbn [rand_int_below] in H. apply obind_ret in H as ([w g1] & E & H).
  destruct (N.ltb_spec n (N.land w (smear n))) as [Hl|Hl].
  - apply IH in H as (rej & w' & Er & Hf & Fr & Ha & Ei).
    exists (w :: rej), w'. split; [|split; [|split; [|split]]]; auto.
    + cbn [length Nat.add rand_words]. rewrite E. cbn [obind]. rewrite Er. reflexivity.
    + cbn [length]. lia.
    + constructor; auto. unfold accepts. apply N.leb_gt. auto.
  - inversion H; subst. exists [], w. split; [|split; [|split; [|split]]]; auto.
    + cbn [length Nat.add rand_words]. rewrite E. reflexivity.
    + simpl; lia.
    + unfold accepts. apply N.leb_le. auto.
Qed.

Lemma rand_int_below_live fuel : forall n g ws,
  rand_words fuel g = Ret ws -> existsb (accepts n) ws = true ->
  exists i g', rand_int_below fuel n g = Ret (Some (i, g')).
Proof.
  induction fuel as [|f IH]; intros n g ws H Hx.
  - inversion H; subst. discriminate.
  - cbn [rand_words] in H. apply obind_ret in H as ([w g1] & E & H). apply obind_ret in H as (r & Er & H).
    inversion H; subst. cbn [rand_int_below]. rewrite E. cbn [obind].
    cbn [existsb] in Hx. unfold accepts at 1 in Hx.
    destruct (N.ltb_spec n (N.land w (smear n))) as [Hl|Hl].
    + apply N.leb_gt in Hl. rewrite Hl in Hx. eapply IH; eauto.
    + eauto.
Qed.

(** ** Text round trip *)
Lemma digit_val_cond c d : digit_val c = Some d ->
  (Nat.leb 48 (nat_of_ascii c) && Nat.leb (nat_of_ascii c) 57 = true) /\ d = Z.of_nat (nat_of_ascii c - 48).
Proof.
  unfold digit_val. intros H.
  destruct ((48 <=? Z.of_nat (nat_of_ascii c))%Z && (Z.of_nat (nat_of_ascii c) <=? 57)%Z) eqn:E; [|discriminate].
  inversion H; subst. split; lia.
Qed.
Lemma digit_val_none c : digit_val c = None ->
  Nat.leb 48 (nat_of_ascii c) && Nat.leb (nat_of_ascii c) 57 = false.
Proof.
  unfold digit_val. intros H.
  destruct ((48 <=? Z.of_nat (nat_of_ascii c))%Z && (Z.of_nat (nat_of_ascii c) <=? 57)%Z) eqn:E; [discriminate|]. lia.
Qed.

Lemma take_digits_ok s : forall a v rest, digits_val (Z.of_N a) s = Some v -> no_digit_first rest ->
  take_digits a (s ++ rest) = (Z.to_N v, rest).
Proof.
  induction s as [|c t IH]; intros a v rest H Hr; cbn [app take_digits digits_val] in *.
  - inversion H; subst. rewrite N2Z.id. destruct rest as [|c r]; [reflexivity|].
    cbn [take_digits no_digit_first] in *. rewrite (digit_val_none c Hr). reflexivity.
  - destruct (digit_val c) as [d|] eqn:E; [|discriminate]. apply digit_val_cond in E as [Ec ->].
    rewrite Ec. apply IH; auto. rewrite <- H. f_equal. lia.
Qed.

Lemma read_u32_ok s w rest : is_word w -> unsigned_numeral s (Z.of_N w) -> no_digit_first rest ->
  read_u32 (s ++ rest) = Some (w, rest).
Proof.
  intros Hw (_ & Hne & Hv) Hr. unfold read_u32.
  destruct s as [|c t]; [congruence|].
  assert (Hc : exists d, digit_val c = Some d).
  { cbn [digits_val] in Hv. destruct (digit_val c); [eauto|discriminate]. }
  destruct Hc as (d & Hd). apply digit_val_cond in Hd as [Hc _].
  cbn [app skip_space].
  assert (Hs : is_space c = false) by (unfold is_space; lia).
  rewrite Hs, Hc. change (c :: t ++ rest) with ((c :: t) ++ rest).
  rewrite (take_digits_ok (c :: t) 0 (Z.of_N w) rest Hv Hr). rewrite N2Z.id.
  destruct (N.ltb_spec w (2 ^ 32)); [reflexivity|]. unfold is_word in Hw. lia.
Qed.

Lemma read_u32_tab s : read_u32 (ascii_of_nat 9 :: s) = read_u32 s.
Proof. reflexivity. Qed.

Lemma read_words_ok pr l : prints_decimal pr -> forall tail, Forall is_word l ->
  exists lead, (lead = [] \/ lead = [ascii_of_nat 9]) /\
  read_words (length l) (concat (map (fun w => pr w ++ [ascii_of_nat 9]) l) ++ tail) = Some (l, lead ++ tail).
Proof.
  intros Hp. 
  assert (G : forall l, Forall is_word l -> forall lead tail, (lead = [] \/ lead = [ascii_of_nat 9]) ->
    exists lead', (lead' = [] \/ lead' = [ascii_of_nat 9]) /\
    read_words (length l) (lead ++ concat (map (fun w => pr w ++ [ascii_of_nat 9]) l) ++ tail) = Some (l, lead' ++ tail)).
  { clear l. intros l F. induction F as [|w l Hw F IH]; intros lead tail Hl.
    - exists lead. auto.
    - cbn [length read_words map concat].
      assert (E : read_u32 (lead ++ ((pr w ++ [ascii_of_nat 9]) ++ concat (map (fun w => pr w ++ [ascii_of_nat 9]) l)) ++ tail)
         = Some (w, [ascii_of_nat 9] ++ concat (map (fun w => pr w ++ [ascii_of_nat 9]) l) ++ tail)).
      { replace (((pr w ++ [ascii_of_nat 9]) ++ concat (map (fun w => pr w ++ [ascii_of_nat 9]) l)) ++ tail)
          with (pr w ++ ([ascii_of_nat 9] ++ concat (map (fun w => pr w ++ [ascii_of_nat 9]) l) ++ tail))
          by (rewrite <- !app_assoc; reflexivity).
        assert (E1 : forall s, read_u32 (lead ++ s) = read_u32 s) by (destruct Hl as [->| ->]; reflexivity).
        rewrite E1. apply read_u32_ok; auto. reflexivity. }
      rewrite E. destruct (IH [ascii_of_nat 9] tail) as (lead' & Hl' & E'); auto.
      exists lead'. split; auto. rewrite E'. reflexivity. }
  intros tail F. destruct (G l F [] tail) as (lead & Hl & E); auto. exists lead; auto.
Qed.

Lemma load_save pr g rest : prints_decimal pr -> mt_typed g -> no_digit_first rest ->
  load_text (save_text pr g ++ rest) = Some (g, rest).
Proof.
  intros Hp (L & W & I) Hr. unfold load_text, save_text. rewrite <- app_assoc.
  destruct (read_words_ok pr (st g) Hp (pr (idx g) ++ rest) W) as (lead & Hl & E).
  rewrite L in E. rewrite E.
  replace (read_u32 (lead ++ pr (idx g) ++ rest)) with (read_u32 (pr (idx g) ++ rest))
    by (destruct Hl as [->| ->]; reflexivity).
  rewrite (read_u32_ok (pr (idx g)) (idx g) rest); auto. destruct g; reflexivity.
Qed.

(** Reading back another generator's text gives exactly that generator, so equal
    texts mean equal generators. *)
Lemma save_inj pr g h : prints_decimal pr -> mt_typed g -> mt_typed h -> save_text pr g = save_text pr h -> g = h.
Proof.
  intros Hp Tg Th E. pose proof (load_save pr g [] Hp Tg I) as A. pose proof (load_save pr h [] Hp Th I) as B.
  rewrite E in A. congruence.
Qed.

(** ** Tempering and histories *)
Lemma w32_land x M : is_word M -> N.land (w32 x) M = N.land x M.
Proof.
  intros HM. unfold w32. apply N.bits_inj. intros i. rewrite !N.land_spec.
  destruct (N.lt_ge_cases i 32).
  - now rewrite N.mod_pow2_bits_low.
  - rewrite (proj1 (word_bits M) HM) by auto. now rewrite !andb_false_r.
Qed.
Lemma temper_spec y : temper y = mt_temper y.
Proof. unfold temper, mt_temper. rewrite !w32_land by reflexivity. reflexivity. Qed.

Lemma mt_run_app l1 : forall g l2 o1 g1, mt_run g l1 = Ret (o1, g1) ->
  mt_run g (l1 ++ l2) = obind (mt_run g1 l2) (fun '(o2, g2) => Ret (o1 ++ o2, g2)).
Proof.
  induction l1 as [|o t IH]; intros g l2 o1 g1 H; cbn [mt_run app] in *.
  - inversion H; subst. destruct (mt_run g1 l2) as [[o2 g2]| | |]; reflexivity.
  - apply obind_ret in H as ([out ga] & E & H). apply obind_ret in H as ([outs gb] & E2 & H).
    inversion H; subst. rewrite E. cbn [obind]. rewrite (IH ga l2 outs g1 E2).
    destruct (mt_run g1 l2) as [[o2 g2]| | |]; cbn [obind]; try reflexivity. now rewrite app_assoc.
Qed.

Definition is_seed (o : mt_op) : Prop := match o with MSeed _ | MSeedArray _ => True | _ => False end.

Lemma seed_step_det o g h : is_seed o -> mt_op_ok o -> mt_typed g -> mt_typed h -> mt_step g o = mt_step h o.
Proof.
  intros Hs Ho Tg Th. destruct o as [s|l|l i|]; try contradiction; cbn [mt_step].
  - destruct (seed_word_gen g s (proj1 Tg) Ho) as (g' & E & _).
    rewrite (seed_word_det g h s g' Ho (proj1 Tg) (proj1 Th) E). now rewrite E.
  - destruct Ho as [Hn Hw]. destruct (seed_array_ok g l (proj1 Tg) Hn Hw) as (g' & E & _).
    rewrite (seed_array_det g h l g' (proj1 Tg) (proj1 Th) E). now rewrite E.
Qed.

Lemma seed_forgets o g h lg lh fut : is_seed o -> mt_op_ok o -> mt_typed g -> mt_typed h ->
  Forall mt_op_ok lg -> Forall mt_op_ok lh -> Forall mt_op_ok fut ->
  exists og oh of gf, mt_run g (lg ++ o :: fut) = Ret (og ++ of, gf) /\ mt_run h (lh ++ o :: fut) = Ret (oh ++ of, gf)
    /\ mt_run g lg = Ret (og, match mt_run g lg with Ret (_, x) => x | _ => g end)
    /\ mt_run h lh = Ret (oh, match mt_run h lh with Ret (_, x) => x | _ => h end).
Proof.
  intros Hs Ho Tg Th Fg Fh Ff.
  destruct (mt_run_typed lg g Tg Fg) as (og & g1 & Eg & _ & Tg1).
  destruct (mt_run_typed lh h Th Fh) as (oh & h1 & Eh & _ & Th1).
  rewrite (mt_run_app lg g (o :: fut) og g1 Eg), (mt_run_app lh h (o :: fut) oh h1 Eh).
  destruct (mt_run_typed (o :: fut) g1 Tg1) as (of & gf & Ef & _ & _); [constructor; auto|].
  assert (E2 : mt_run h1 (o :: fut) = Ret (of, gf)).
  { cbn [mt_run] in *. now rewrite <- (seed_step_det o g1 h1 Hs Ho Tg1 Th1). }
  rewrite Ef, E2. cbn [obind]. exists og, oh, of, gf. rewrite Eg, Eh. auto.
Qed.

Lemma seed_step_state o g out g1 : is_seed o -> mt_op_ok o -> mt_typed g -> mt_step g o = Ret (out, g1) ->
  block (st g1) /\ idx g1 = 624.
Proof.
  intros Hs Ho T E. destruct o as [s|l|l i|]; try contradiction; cbn [mt_step] in E.
  - destruct (seed_word_gen g s (proj1 T) Ho) as (g' & E' & L & I & _ & W & _). rewrite E' in E.
    inversion E; subst. split; [split|]; auto.
  - destruct Ho as [Hn Hw]. destruct (seed_array_ok g l (proj1 T) Hn Hw) as (g' & E' & B & I & _). rewrite E' in E.
    inversion E; subst. auto.
Qed.

Lemma stream_seeded o g out g1 : is_seed o -> mt_op_ok o -> mt_typed g -> mt_step g o = Ret (out, g1) ->
  exists x, mt_sequence (st g1) x /\
  forall k, rand_words k g1 = Ret (map (fun i => mt_temper (x i)) (seq 624 k)).
Proof.
  intros Hs Ho T E. destruct (seed_step_state o g out g1 Hs Ho T E) as [B I].
  destruct (mt_sequence_exists (st g1) B) as (x & X). exists x. split; auto.
  intros k. rewrite (stream_after_seed g1 x k B I X). f_equal. apply map_ext. intros; apply temper_spec.
Qed.

Lemma stream_any g : mt_typed g ->
  exists x, mt_sequence (st g) x /\
  forall k, rand_words k g = Ret (map (fun i => mt_temper (x i)) (seq (N.to_nat (N.min (idx g) 624)) k)).
Proof.
  intros (L & W & Hi). assert (B : block (st g)) by (split; auto).
  destruct (mt_sequence_exists (st g) B) as (x & X). exists x. split; auto. intros k.
  set (g1 := {| st := st g; idx := N.min (idx g) 624 |}).
  assert (E1 : rand_int g = rand_int g1).
  { unfold rand_int, g1; cbn [st idx]. unfold state_size.
    destruct (N.leb_spec 624 (idx g)) as [Hl|Hl].
    - rewrite N.min_r by auto. reflexivity.
    - rewrite N.min_l by lia. destruct (N.leb_spec 624 (idx g)); [lia|]. reflexivity. }
  replace (rand_words k g) with (rand_words k g1) by (destruct k; cbn [rand_words]; rewrite ?E1; reflexivity).
  rewrite (rand_words_at x (mt_sequence_rec _ _ B X) k g1 (N.to_nat (N.min (idx g) 624))).
  - f_equal. apply map_ext. intros; apply temper_spec.
  - unfold g1. split; [exact B|]. cbn [idx st]. split; [lia|]. exists 0%nat. split; [lia|].
    intros i Hi'. apply nth_error_nth. apply X; auto.
Qed.

(** The words the generator will ever return are determined by, and in order of, the sequence. *)
Lemma rand_below_total_word fuel n g i g' : mt_typed g -> is_word n ->
  rand_int_below fuel n g = Ret (Some (i, g')) -> i <= n /\ mt_typed g'.
Proof.
  revert g. induction fuel as [|f IH]; intros g T Hn H; [discriminate|].
  cbn [rand_int_below] in H. destruct (rand_int_typed g T) as (w & g1 & E & Hw & T1).
  rewrite E in H. cbn [obind] in H.
  destruct (N.ltb_spec n (N.land w (smear n))).
  - eapply IH; eauto.
  - inversion H; subst. auto.
Qed.

Lemma rand_below_defined fuel : forall n g, mt_typed g -> exists r, rand_int_below fuel n g = Ret r.
Proof.
  induction fuel as [|f IH]; intros n g T; [cbn; eauto|].
  cbn [rand_int_below]. destruct (rand_int_typed g T) as (w & g1 & E & Hw & T1). rewrite E. cbn [obind].
  destruct (N.ltb _ _); eauto.
Qed.
