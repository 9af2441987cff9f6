(** C63: seeding from the surroundings; C64: real valued random numbers; and what different seeds give (C09).
    A word is a number below 2^32 ([is_word]); [mt_typed] is a generator object as the C++ type allows it; [val] is the real
    number a finite double or float stands for. *)
From Coq Require Import List ZArith NArith Reals SpecFloat Lia Lra.
From Flocq Require IEEE754.BinarySingleNaN Core.Defs.
From Verif Require Import Base Scalar B64Lib FloatOps MTModel MTSpec MTProofs MTProofs2 MTProofs3 RandModel RandSpec RandProofs.
Import ListNotations.
Open Scope N_scope.

(** * C09 *)
(** Generators seeded with two different words, whatever happened to them before, differ within their first 624 numbers. *)
Theorem C09_seeds_differ : forall g h s s', mt_typed g -> mt_typed h -> is_word s -> is_word s' -> s <> s' ->
  exists g' h' l l', seed_word g s = Ret g' /\ seed_word h s' = Ret h' /\ rand_words 624 g' = Ret l /\ rand_words 624 h' = Ret l' /\ l <> l'.
Proof. exact seeds_differ. Qed.
Print Assumptions C09_seeds_differ.
Example C09_seeds_differ_example : mt_typed {| st := repeat 7 624; idx := 3 |} /\ is_word 5489 /\ is_word 5490 /\ 5489 <> 5490.
Proof.
  split; [|repeat split; discriminate]. repeat split. apply Forall_forall. intros x I. apply repeat_spec in I. subst. reflexivity.
Qed.

(** * C63 *)
(** seed() always leaves a usable generator: seeded with the words of the device if all of them can be read, else with a word made
    of the time, the clock and the number of such calls before. *)
Theorem C63_seed : forall g d e, mt_typed g -> is_word d -> words_only e -> exists g' d', seed_env g d e = Ret (g', d') /\ mt_typed g' /\ idx g' = 624 /\ is_word d' /\
  ((exists l, delivers e l /\ seed_array g l = Ret g' /\ d' = d) \/
   (no_device e /\ seed_word g (clock_seed (now e) (ticks e) d) = Ret g' /\ d' = (d + 1) mod 2 ^ 32)).
Proof. exact seed_env_ok. Qed.
Print Assumptions C63_seed.
(** What the generator held before does not matter. *)
Theorem C63_seed_forgets : forall g h d e, mt_typed g -> mt_typed h -> is_word d -> words_only e -> seed_env g d e = seed_env h d e.
Proof.
  intros g h d e G H D W. destruct (device_cases e W) as [(l & V & F)|N].
  - rewrite !(seed_env_device _ d e l V). destruct V as (f & E & L & A).
    destruct (seed_array_ok g l (proj1 G)) as (g' & S & _); auto; [intros ->; discriminate|]. rewrite S.
    now rewrite (seed_array_det g h l g' (proj1 G) (proj1 H) S).
  - rewrite !(seed_env_clock _ d e N).
    destruct (seed_word_gen g (clock_seed (now e) (ticks e) d) (proj1 G) (clock_seed_word _ _ _)) as (g' & S & _). rewrite S.
    now rewrite (seed_word_det g h _ g' (clock_seed_word _ _ _) (proj1 G) (proj1 H) S).
Qed.
Print Assumptions C63_seed_forgets.
(** A program that builds generators one after another, whatever its surroundings do: it never fails, and without the device two
    generators built at the same time and clock differ within their first 624 numbers, unless 2^32 calls lie between. *)
Theorem C63_made : forall words d l, length words = 624%nat -> Forall is_word words -> Forall words_only l -> is_word d ->
  exists r, make_all words d l = Ret r /\ length r = length l /\ Forall mt_typed r.
Proof. intros words d l L W F. now apply make_all_defined. Qed.
Print Assumptions C63_made.
Theorem C63_same_instant_partial : forall words d pre e1 mid e2 post r, length words = 624%nat -> Forall is_word words -> is_word d ->
  Forall words_only (pre ++ e1 :: mid ++ e2 :: post) -> no_device e1 -> no_device e2 -> now e1 = now e2 -> ticks e1 = ticks e2 ->
  N.of_nat (length mid) < 2 ^ 32 - 1 ->
  make_all words d (pre ++ e1 :: mid ++ e2 :: post) = Ret r ->
  exists g1 g2 l1 l2, nth_error r (length pre) = Some g1 /\ nth_error r (length pre + S (length mid)) = Some g2 /\
    rand_words 624 g1 = Ret l1 /\ rand_words 624 g2 = Ret l2 /\ l1 <> l2.
Proof. exact make_all_distinct. Qed.
Print Assumptions C63_same_instant_partial.
(** At different times they can be equal: the first two generators of a program, the second made one second later, when the clock
    has moved by 51508 microseconds. *)
Theorem C63_later_refuted : forall words, length words = 624%nat -> Forall is_word words ->
  let e1 := {| device := None; now := 1700000000; ticks := 84345 |} in let e2 := {| device := None; now := 1700000001; ticks := 135853 |} in
  words_only e1 /\ words_only e2 /\ no_device e1 /\ no_device e2 /\ exists g, make_all words 0 [e1; e2] = Ret [g; g].
Proof.
  intros words L W e1 e2. assert (W1 : words_only e1) by (intros f k w E; discriminate). assert (W2 : words_only e2) by (intros f k w E; discriminate).
  split; auto. split; auto. assert (N1 : no_device e1) by now left. assert (N2 : no_device e2) by now left. split; auto. split; auto.
  cbn [make_all]. unfold make_env. rewrite (seed_env_clock _ 0 e1 N1).
  destruct (seed_word_gen {| st := words; idx := 0 |} (clock_seed (now e1) (ticks e1) 0) L (clock_seed_word _ _ _)) as (g & S & _).
  rewrite S. cbn [obind]. rewrite (seed_env_clock _ ((0 + 1) mod 2 ^ 32) e2 N2).
  replace (clock_seed (now e2) (ticks e2) ((0 + 1) mod 2 ^ 32)) with (clock_seed (now e1) (ticks e1) 0) by (vm_compute; reflexivity).
  rewrite S. exists g. reflexivity.
Qed.
Print Assumptions C63_later_refuted.
Example C63_examples :
  let e := {| device := Some (fun k => if Nat.ltb k 100 then Some 5 else None); now := 1700000000; ticks := 2500 |} in
  let f := {| device := Some (fun k => Some (N.of_nat k)); now := 1700000000; ticks := 2500 |} in
  words_only e /\ no_device e /\ delivers f (map N.of_nat (seq 0 624)).
Proof.
  split; [|split].
  - intros f k w E Q. change (Some (fun k => if Nat.ltb k 100 then Some 5 else None) = Some f) in E. injection E as E. subst f. cbv beta in Q. destruct (Nat.ltb k 100); [|discriminate]. assert (w = 5) as -> by congruence. reflexivity.
  - right. eexists _, 100%nat. split; [reflexivity|]. split; [lia|reflexivity].
  - eexists. split; [reflexivity|]. split; [now rewrite map_length, seq_length|]. intros i Hi.
    rewrite (map_nth_error N.of_nat i _ (d := i)); auto. rewrite (nth_error_nth' _ 0%nat) by (rewrite seq_length; lia). now rewrite seq_nth.
Qed.

(** * C64 *)
Open Scope R_scope.
(** rand() and rand<double>(): the double made from the next word [w] is in [0, 1], next to w / (2^32 - 1), and 0 and 1 come from
    one word each. *)
Theorem C64_double : forall g, mt_typed g -> exists w r g', rand_int g = Ret (w, g') /\ rand_real g = Ret (r, g') /\ is_word w /\ mt_typed g' /\
  is_double r /\ finite r /\ 0 <= val r <= 1 /\
  Rabs (val r - IZR (Z.of_N w) / 4294967295) <= / 2 ^ 52 * (IZR (Z.of_N w) / 4294967295) /\
  (val r = 0 <-> w = 0%N) /\ (val r = 1 <-> w = 4294967295%N).
Proof.
  intros g G. destruct (rand_int_typed g G) as (w & g' & E & W & G'). exists w, (real_of w), g'. unfold rand_real. rewrite E.
  destruct (real_val w W) as (V & F & _). destruct (real_range w W) as (R0 & Z & O). pose proof (real_close w W) as C.
  repeat (split; [assumption || reflexivity|]). assumption.
Qed.
Print Assumptions C64_double.
(** Different words give different numbers, in the same order. *)
Theorem C64_double_order : forall g h w w' r r' g' h', mt_typed g -> mt_typed h -> rand_int g = Ret (w, g') -> rand_int h = Ret (w', h') ->
  rand_real g = Ret (r, g') -> rand_real h = Ret (r', h') -> (val r < val r' <-> (w < w')%N).
Proof.
  intros g h w w' r r' g' h' G H E E' Q Q'. destruct (rand_int_typed g G) as (u & gu & Eu & W & _). rewrite E in Eu. injection Eu as <- <-.
  destruct (rand_int_typed h H) as (u' & gu' & Eu' & W' & _). rewrite E' in Eu'. injection Eu' as <- <-.
  unfold rand_real in Q, Q'. rewrite E in Q. rewrite E' in Q'. cbn [obind] in Q, Q'. injection Q as <-. injection Q' as <-.
  fold (real_of w) (real_of w'). split; [|apply real_increasing; auto]. intros L. destruct (N.lt_trichotomy w w') as [|[->|X]]; auto; [lra|].
  pose proof (real_increasing w' w W' W X). lra.
Qed.
Print Assumptions C64_double_order.
(** rand(n): between 0 and n for every finite double n, with both ends reached. *)
Theorem C64_upto : forall g n, mt_typed g -> is_double n -> finite n -> exists w r g', rand_int g = Ret (w, g') /\ rand_upto n g = Ret (r, g') /\
  is_double r /\ finite r /\ (0 <= val n -> 0 <= val r <= val n) /\ (val n <= 0 -> val n <= val r <= 0) /\
  (w = 0%N -> val r = 0) /\ (w = 4294967295%N -> val r = val n).
Proof.
  intros g n G D F. destruct (rand_int_typed g G) as (w & g' & E & W & G'). exists w, (SFmul prec64 emax64 (real_of w) n), g'. unfold rand_upto, rand_real. rewrite E.
  split; auto. split; [reflexivity|]. now apply upto_val.
Qed.
Print Assumptions C64_upto.
(** rand<float>(): in [0, 1] and next to w / 2^32; 0 comes from one word and 1 from 128 words. *)
Theorem C64_float : forall g, mt_typed g -> exists w r g', rand_int g = Ret (w, g') /\ rand_float g = Ret (r, g') /\ is_word w /\ mt_typed g' /\
  valid_float prec32 emax32 r /\ finite r /\ 0 <= val r <= 1 /\
  Rabs (val r - IZR (Z.of_N w) / 4294967296) <= / 2 ^ 22 * (IZR (Z.of_N w) / 4294967296) /\
  (val r = 0 <-> w = 0%N) /\ (val r = 1 <-> (4294967168 <= w)%N).
Proof.
  intros g G. destruct (rand_int_typed g G) as (w & g' & E & W & G'). exists w, (float_of w), g'. unfold rand_float. rewrite E.
  destruct (float_val w W) as (V & F & _). destruct (float_range w W) as (R0 & Z & O). pose proof (float_close w W) as C.
  repeat (split; [assumption || reflexivity|]). assumption.
Qed.
Print Assumptions C64_float.
Theorem C64_float_order : forall g h w w' r r' g' h', mt_typed g -> mt_typed h -> rand_int g = Ret (w, g') -> rand_int h = Ret (w', h') ->
  rand_float g = Ret (r, g') -> rand_float h = Ret (r', h') -> (w <= w')%N -> val r <= val r'.
Proof.
  intros g h w w' r r' g' h' G H E E' Q Q'. destruct (rand_int_typed g G) as (u & gu & Eu & W & _). rewrite E in Eu. injection Eu as <- <-.
  destruct (rand_int_typed h H) as (u' & gu' & Eu' & W' & _). rewrite E' in Eu'. injection Eu' as <- <-.
  unfold rand_float in Q, Q'. rewrite E in Q. rewrite E' in Q'. cbn [obind] in Q, Q'. injection Q as <-. injection Q' as <-. now apply float_mono.
Qed.
Print Assumptions C64_float_order.
Example C64_examples : is_double (b64_ofZ 10) /\ finite (b64_ofZ 10) /\ 0 <= val (b64_ofZ 10) /\
  exists g, seed_word {| st := repeat 0%N 624; idx := 0 |} 5489 = Ret g /\ mt_typed g.
Proof.
  split; [reflexivity|]. split; [reflexivity|]. split; [unfold val; set (e := b64_ofZ 10); vm_compute in e; unfold e, BinarySingleNaN.SF2R, Defs.F2R; cbn; lra|].
  destruct (seed_word_gen {| st := repeat 0%N 624; idx := 0 |} 5489) as (g & S & L & I & _ & W & _); [reflexivity|reflexivity|].
  exists g. split; auto. split; auto. split; auto. rewrite I. reflexivity.
Qed.
