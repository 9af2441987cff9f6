(** C74: the outputs of the generator determine its future and its past. *)
From Coq Require Import List ZArith NArith Bool Lia Arith.
From Verif Require Import Base MTModel MTSpec MTProofs MTProofs2 MTInverse.
Import ListNotations.
Open Scope N_scope.

(** Two generators that return the same 624 words return the same words for ever. *)
Theorem C74_outputs_determine_future : forall g h, mt_typed g -> mt_typed h ->
  rand_words 624 g = rand_words 624 h -> forall k, rand_words k g = rand_words k h.
Proof.
  intros g h Tg Th. destruct (stream_any g Tg) as (x & X & Ex). destruct (stream_any h Th) as (y & Y & Ey). destruct Tg as (Lg & Wg & _). destruct Th as (Lh & Wh & _).
  set (a := N.to_nat (N.min (idx g) 624)) in *. set (b := N.to_nat (N.min (idx h) 624)) in *. rewrite Ex, Ey. intros E. apply Ret_inj in E. rewrite map_seq_eq in E.
  assert (A : agree x y a b) by (apply window; intros i Hi; apply temper_inj, E, Hi). intros k. rewrite Ex, Ey. f_equal. apply map_seq_eq. intros i Hi. f_equal.
  destruct i as [|i]; [apply temper_inj, E; lia|]. apply (agree_all x y (proj2 X) (proj2 Y)); [exact A|lia].
Qed.
Print Assumptions C74_outputs_determine_future.
(** Fewer words would not do in general: the generators below differ in the last word of their state only. *)
Theorem C74_623_not_enough : exists g h, mt_typed g /\ mt_typed h /\ rand_words 623 g = rand_words 623 h /\ rand_words 624 g <> rand_words 624 h.
Proof.
  exists {| st := repeat 0 624; idx := 0 |}, {| st := repeat 0 623 ++ [1]; idx := 0 |}.
  assert (Z : Forall is_word (repeat 0 623)) by (apply Forall_forall; intros z Hz; apply repeat_spec in Hz; subst; reflexivity).
  split; [split; [reflexivity|split; [apply Forall_forall; intros z Hz; apply repeat_spec in Hz; subst; reflexivity|reflexivity]]|]. split; [split; [reflexivity|split; [cbn [st]; apply Forall_app; split; [exact Z|repeat constructor]|reflexivity]]|]. split; [vm_compute; reflexivity|vm_compute; discriminate].
Qed.
Print Assumptions C74_623_not_enough.
(** Nothing is forgotten: two generators whose 624 words after any number of calls are the same have returned the same
    words from their second call on; from the first if they have been seeded or used since their state was set by hand. *)
Theorem C74_future_determines_past : forall g h j u v, mt_typed g -> mt_typed h ->
  rand_words (j + 624) g = Ret u -> rand_words (j + 624) h = Ret v -> skipn j u = skipn j v ->
  tl u = tl v /\ (0 < idx g -> 0 < idx h -> u = v).
Proof.
  intros g h j u v Tg Th. destruct (stream_any g Tg) as (x & X & Ex). destruct (stream_any h Th) as (y & Y & Ey). destruct Tg as (Lg & Wg & _). destruct Th as (Lh & Wh & _).
  rewrite Ex, Ey. intros Eu Ev E. apply Ret_inj in Eu, Ev. subst u v. rewrite !skip_map_seq, map_seq_eq in E.
  assert (Wx : forall i, is_word (x i)) by (intros i; exact (block_seq_words (st g) x (conj Lg Wg) X i i (le_n i))). assert (Wy : forall i, is_word (y i)) by (intros i; exact (block_seq_words (st h) y (conj Lh Wh) Y i i (le_n i))).
  set (a := N.to_nat (N.min (idx g) 624)) in *. set (b := N.to_nat (N.min (idx h) 624)) in *.
  assert (A : agree x y a b) by (apply (agree_off x y (proj2 X) (proj2 Y) Wx Wy j), window; intros i Hi; apply temper_inj, E, Hi). split.
  - rewrite !tl_map_seq by lia. apply map_seq_eq. intros i Hi. f_equal. pose proof (agree_all x y (proj2 X) (proj2 Y) a b (S i) A ltac:(lia)) as K. rewrite !Nat.add_succ_r in K. exact K.
  - intros Pg Ph. apply map_seq_eq. intros i Hi. f_equal. assert (Ea : a = S (a - 1)) by (unfold a; lia). assert (Eb : b = S (b - 1)) by (unfold b; lia). rewrite Ea, Eb in A. apply (agree_back x y (proj2 X) (proj2 Y) Wx Wy) in A.
    pose proof (agree_all x y (proj2 X) (proj2 Y) _ _ (S i) A ltac:(lia)) as K. replace (a - 1 + S i)%nat with (a + i)%nat in K by lia. replace (b - 1 + S i)%nat with (b + i)%nat in K by lia. exact K.
Qed.
Print Assumptions C74_future_determines_past.
(** A generator that was seeded, in either way, never gets stuck: it does not return 624 zeros in a row, however long it
    has been running. *)
Theorem C74_never_stuck : forall o g out g1 j ws, is_seed o -> mt_op_ok o -> mt_typed g -> mt_step g o = Ret (out, g1) ->
  rand_words (j + 624) g1 = Ret ws -> skipn j ws <> repeat 0 624.
Proof.
  intros o g out g1 j ws Hs Ho Tg Eo Ew Z. destruct (stream_seeded o g out g1 Hs Ho Tg Eo) as (x & X & Ex). destruct (seed_step_state o g out g1 Hs Ho Tg Eo) as [B I].
  assert (Wx : forall i, is_word (x i)) by (intros i; exact (block_seq_words (st g1) x B X i i (le_n i))). rewrite Ex in Ew. apply Ret_inj in Ew. subst ws. rewrite skip_map_seq in Z.
  set (y := fun _ : nat => 0). assert (Ry : recur y) by (intros k; reflexivity). assert (Wy : forall i, is_word (y i)) by (intros i; reflexivity).
  assert (Zy : repeat 0 624 = map (fun i => mt_temper (y i)) (seq 624 624)) by (vm_compute; reflexivity). rewrite Zy, map_seq_eq in Z.
  assert (A : agree x y (624 + j) (624 + j)). { apply window. intros i Hi. apply temper_inj. rewrite (Z i Hi). reflexivity. }
  replace (624 + j)%nat with (0 + (624 + j))%nat in A by lia. apply (agree_off x y (proj2 X) Ry Wx Wy) in A. destruct A as [T E]. unfold y in *.
  destruct X as [X0 _]. destruct o as [s|l|l i|]; try contradiction; cbn [mt_step] in Eo.
  - destruct (seed_word_gen g s (proj1 Tg) Ho) as (g' & E' & L & _ & _ & _ & R). rewrite E' in Eo. cbn [obind] in Eo. injection Eo as _ <-. specialize (R 2%nat ltac:(lia)). cbn [Nat.sub] in R.
    pose proof (E 1%nat ltac:(lia)) as E1. pose proof (E 2%nat ltac:(lia)) as E2. pose proof (X0 1%nat ltac:(lia)) as K1. pose proof (X0 2%nat ltac:(lia)) as K2. cbn [Nat.add] in E1, E2. rewrite E1 in K1. rewrite E2 in K2.
    apply (nth_error_nth _ _ 0) in K1, K2. rewrite K1, K2 in R. vm_compute in R. discriminate.
  - destruct Ho as [Hn Hw]. destruct (seed_array_ok g l (proj1 Tg) Hn Hw) as (g' & E' & _ & _ & R). rewrite E' in Eo. cbn [obind] in Eo. injection Eo as _ <-. pose proof (X0 0%nat ltac:(lia)) as K0. apply (nth_error_nth _ _ 0) in K0. rewrite K0 in R. rewrite R in T. vm_compute in T. discriminate.
Qed.
Print Assumptions C74_never_stuck.
(** Two different generators with the same future and past, and a seed. *)
Example C74_example : let g := {| st := repeat 7 624; idx := 624 |} in let h := {| st := repeat 7 624; idx := 700 |} in
  mt_typed g /\ mt_typed h /\ g <> h /\ rand_words 624 g = rand_words 624 h /\ 0 < idx g /\ 0 < idx h /\ is_seed (MSeed 5489) /\ mt_op_ok (MSeed 5489).
Proof.
  cbv zeta. assert (Z : Forall is_word (repeat 7 624)) by (apply Forall_forall; intros z Hz; apply repeat_spec in Hz; now subst).
  split; [split; [reflexivity|split; [exact Z|reflexivity]]|]. split; [split; [reflexivity|split; [exact Z|reflexivity]]|]. split; [intros E; apply (f_equal idx) in E; discriminate|].
  split; [vm_compute; reflexivity|]. repeat split; reflexivity.
Qed.
