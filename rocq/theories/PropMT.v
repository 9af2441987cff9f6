(** Property theorems for the random number generator: C05 to C09.  [Ret] means
    that no array access was out of bounds. *)
From Coq Require Import List ZArith NArith Bool Ascii.
From Verif Require Import Base MTModel MTSpec IntStrModel IntStrSpec IntStrProofs MTProofs MTProofs2.
Import ListNotations.
Open Scope N_scope.

(** ** C05 *)
Theorem C05_index_safe : forall l g, mt_typed g -> Forall mt_op_ok l ->
  exists out g', mt_run g l = Ret (out, g') /\ Forall is_word out /\ mt_typed g'.
Proof. exact mt_run_typed. Qed.
Print Assumptions C05_index_safe.

Theorem C05_bounded_safe : forall fuel n g, mt_typed g -> exists r, rand_int_below fuel n g = Ret r.
Proof. exact rand_below_defined. Qed.
Print Assumptions C05_bounded_safe.

(** The excluded case really is one: an empty seed array is read out of bounds. *)
Theorem C05_empty_seed_array_undefined : forall g, length (st g) = 624%nat -> seed_array g [] = Undef.
Proof. exact seed_empty_undef. Qed.
Print Assumptions C05_empty_seed_array_undefined.

Example C05_hypotheses :
  mt_typed {| st := repeat 7 624; idx := 4000000000 |} /\
  Forall mt_op_ok [MRand; MSeed 5489; MRand; MSeedArray [1; 2; 3]; MLoad (repeat 9 624) 77; MRand].
Proof.
  split; [|repeat constructor; try discriminate; try (apply Forall_forall; intros x H; apply repeat_spec in H; subst; reflexivity)].
  repeat split; try reflexivity. apply Forall_forall. intros x H. apply repeat_spec in H. subst. reflexivity.
Qed.

(** ** C06 *)
Theorem C06_in_range : forall fuel n g i g', mt_typed g -> is_word n ->
  rand_int_below fuel n g = Ret (Some (i, g')) -> i <= n /\ mt_typed g'.
Proof. exact rand_below_total_word. Qed.
Print Assumptions C06_in_range.

(** The result comes from the first word of the stream that is accepted. *)
Theorem C06_first_accepted_word : forall fuel n g i g',
  rand_int_below fuel n g = Ret (Some (i, g')) ->
  exists rej w, rand_words (length rej + 1) g = Ret (rej ++ [w]) /\ (length rej < fuel)%nat /\
    Forall (fun r => accepts n r = false) rej /\ accepts n w = true /\ i = N.land w (smear n).
Proof. exact rand_int_below_sound. Qed.
Print Assumptions C06_first_accepted_word.

(** The loop ends as soon as the stream contains an accepted word. *)
Theorem C06_returns : forall fuel n g ws,
  rand_words fuel g = Ret ws -> existsb (accepts n) ws = true ->
  exists i g', rand_int_below fuel n g = Ret (Some (i, g')).
Proof. exact rand_int_below_live. Qed.
Print Assumptions C06_returns.

(** The word-to-result map is reduction modulo the power of two above n. *)
Theorem C06_mask : forall n w, is_word n -> N.land w (smear n) = w mod 2 ^ N.size n.
Proof. exact land_smear. Qed.
Print Assumptions C06_mask.

(** Every value in [0,n] is produced by the same number of words. *)
Theorem C06_unbiased : forall n i, is_word n -> i <= n ->
  count_words (fun w => N.land w (smear n) =? i) = 2 ^ (32 - N.size n).
Proof. exact uniform_count. Qed.
Print Assumptions C06_unbiased.

Theorem C06_accepts_more_than_half : forall n, is_word n ->
  2 ^ 32 < 2 * count_words (fun w => N.land w (smear n) <=? n).
Proof. exact accept_half. Qed.
Print Assumptions C06_accepts_more_than_half.

Example C06_hypotheses : is_word 4294967295 /\ is_word 5 /\
  match seed_word {| st := repeat 0 624; idx := 0 |} 5489 with
  | Ret g => match rand_words 4 g with Ret ws => existsb (accepts 5) ws | _ => false end
  | _ => false
  end = true.
Proof. repeat split; vm_compute; reflexivity. Qed.

(** ** C07 *)
Theorem C07_load_save : forall pr g rest, prints_decimal pr -> mt_typed g -> no_digit_first rest ->
  load_text (save_text pr g ++ rest) = Some (g, rest).
Proof. exact load_save. Qed.
Print Assumptions C07_load_save.

Theorem C07_text_identifies_state : forall pr g h, prints_decimal pr -> mt_typed g -> mt_typed h ->
  save_text pr g = save_text pr h -> g = h.
Proof. exact save_inj. Qed.
Print Assumptions C07_text_identifies_state.

(** A printer with the assumed property exists: the library's own IntToString. *)
Example C07_hypotheses :
  prints_decimal (fun w => match uint_to_string (Z.of_N w) with Ret s => s | _ => [] end).
Proof.
  intros w Hw. destruct (uint_to_string_ok (Z.of_N w)) as (s & E & H).
  - unfold is_word in Hw. split; [apply N2Z.is_nonneg|]. eapply Z.lt_trans; [apply N2Z.inj_lt, Hw|reflexivity].
  - rewrite E. exact H.
Qed.

(** ** C08 *)
Theorem C08_recurrence_after_seeding : forall o g out g1,
  is_seed o -> mt_op_ok o -> mt_typed g -> mt_step g o = Ret (out, g1) ->
  exists x, mt_sequence (st g1) x /\
  forall k, rand_words k g1 = Ret (map (fun i => mt_temper (x i)) (seq 624 k)).
Proof. exact stream_seeded. Qed.
Print Assumptions C08_recurrence_after_seeding.

Theorem C08_recurrence_from_any_state : forall g, mt_typed g ->
  exists x, mt_sequence (st g) x /\
  forall k, rand_words k g = Ret (map (fun i => mt_temper (x i)) (seq (N.to_nat (N.min (idx g) 624)) k)).
Proof. exact stream_any. Qed.
Print Assumptions C08_recurrence_from_any_state.

Theorem C08_sequence_unique : forall s x y, length s = 624%nat ->
  mt_sequence s x -> mt_sequence s y -> forall i, x i = y i.
Proof. exact mt_sequence_fun. Qed.
Print Assumptions C08_sequence_unique.

(** The published mt19937ar reference outputs. *)
Example C08_reference_vector :
  match seed_array {| st := repeat 0 624; idx := 0 |} [0x123; 0x234; 0x345; 0x456] with
  | Ret g => rand_words 5 g | _ => Undef end
  = Ret [1067595299; 955945823; 477289528; 4107218783; 4228976476].
Proof. vm_compute. reflexivity. Qed.

(** ** C09 *)
(** After a seeding operation everything observable is independent of the past. *)
Theorem C09_seeding_forgets_history : forall o g h lg lh fut,
  is_seed o -> mt_op_ok o -> mt_typed g -> mt_typed h ->
  Forall mt_op_ok lg -> Forall mt_op_ok lh -> Forall mt_op_ok fut ->
  exists og oh of gf, mt_run g (lg ++ o :: fut) = Ret (og ++ of, gf) /\ mt_run h (lh ++ o :: fut) = Ret (oh ++ of, gf)
    /\ mt_run g lg = Ret (og, match mt_run g lg with Ret (_, x) => x | _ => g end)
    /\ mt_run h lh = Ret (oh, match mt_run h lh with Ret (_, x) => x | _ => h end).
Proof. exact seed_forgets. Qed.
Print Assumptions C09_seeding_forgets_history.

Theorem C09_seed_recurrence : forall g s, length (st g) = 624%nat -> is_word s ->
  exists g', seed_word g s = Ret g' /\ length (st g') = 624%nat /\ idx g' = 624 /\
   nth 0 (st g') 0 = s /\ Forall is_word (st g') /\
   (forall i, (1 <= i < 624)%nat -> nth i (st g') 0 =
      w32 (1812433253 * (N.lxor (nth (i - 1) (st g') 0) (N.shiftr (nth (i - 1) (st g') 0) 30)) + N.of_nat i)).
Proof. exact seed_word_gen. Qed.
Print Assumptions C09_seed_recurrence.

Theorem C09_array_seed_nonzero : forall g init, length (st g) = 624%nat -> init <> [] -> Forall is_word init ->
  exists g', seed_array g init = Ret g' /\ block (st g') /\ idx g' = 624 /\ nth 0 (st g') 0 = 0x80000000.
Proof. exact seed_array_ok. Qed.
Print Assumptions C09_array_seed_nonzero.

Example C09_hypotheses : is_seed (MSeedArray [5; 6]) /\ mt_op_ok (MSeedArray [5; 6]) /\ is_seed (MSeed 3).
Proof. repeat split; try discriminate. repeat constructor. Qed.
