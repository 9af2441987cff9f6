(** C06, C10: the rejection loop of randInt(n) ends, and so does Shuffle, for every state of the generator. *)
From Coq Require Import List ZArith NArith Bool Lia Arith Permutation.
From Verif Require Import Base MTModel MTSpec MTProofs MTProofs2 MTInverse MTLive ShuffleModel ShuffleSpec ShuffleProofs.
Import ListNotations.
Open Scope N_scope.

(** No bit of the output stays 1 for 19999 calls, whatever the state. *)
Theorem C06_every_bit_clears : forall g fuel ws i, mt_typed g -> 19999 <= N.of_nat fuel -> rand_words fuel g = Ret ws -> exists w, In w ws /\ N.testbit w i = false.
Proof.
  intros g fuel ws i T F E. destruct (stream_any g T) as (x & Hx & Es). rewrite Es in E. apply Ret_inj in E. destruct T as (L & W & _). set (a := N.to_nat (N.min (idx g) 624)) in *. clearbody a.
  assert (Wx : forall k, is_word (x k)) by (intros k; apply (block_seq_words (st g) x (conj L W) Hx k k), le_n).
  destruct (existsb (fun w => negb (N.testbit w i)) ws) eqn:B.
  - apply existsb_exists in B as (w & I & B). exists w. split; [exact I|]. destruct (N.testbit w i); [discriminate|reflexivity].
  - exfalso. destruct (the_operator x (proj2 Hx) Wx) as (r & Hr & Er). apply (not_all_true x (proj2 Hx) Wx r Hr Er i a). intros s Hs.
    assert (I : In (mt_temper (x (a + s)%nat)) ws). { rewrite <- E. apply in_map_iff. exists (a + s)%nat. split; [reflexivity|]. apply in_seq. lia. }
    destruct (N.testbit (mt_temper (x (a + s)%nat)) i) eqn:Q; [reflexivity|]. rewrite <- not_true_iff_false in B. exfalso. apply B. apply existsb_exists. exists (mt_temper (x (a + s)%nat)). rewrite Q. auto.
Qed.
Print Assumptions C06_every_bit_clears.

(** randInt(n) returns, after at most 19999 words, for every n and every state. *)
Theorem C06_always_returns : forall fuel n g, mt_typed g -> is_word n -> 19999 <= N.of_nat fuel ->
  exists i g', rand_int_below fuel n g = Ret (Some (i, g')) /\ i <= n /\ mt_typed g'.
Proof.
  intros fuel n g T Hn F. destruct (stream_any g T) as (x & _ & Es). specialize (Es fuel). set (ws := map _ _) in Es. clearbody ws. destruct (C06_every_bit_clears g fuel ws (N.pred (N.size n)) T F Es) as (w & I & Z).
  destruct (rand_int_below_live fuel n g ws Es) as (i & g' & R).
  { apply existsb_exists. exists w. split; [exact I|]. unfold accepts. apply N.leb_le. rewrite land_smear by exact Hn. destruct n as [|p]; [change (2 ^ N.size 0) with 1; rewrite N.mod_1_r; lia|].
    assert (P : 2 ^ N.pred (N.size (N.pos p)) <= N.pos p) by (rewrite N.size_log2 by discriminate; rewrite N.pred_succ; apply N.log2_spec; lia).
    apply N.le_trans with (2 := P). set (s := N.size (N.pos p)) in *. assert (S0 : s = N.succ (N.pred s)) by (unfold s; rewrite N.size_log2 by discriminate; now rewrite N.pred_succ). set (t := N.pred s) in *. rewrite S0. clearbody t.
    replace (w mod 2 ^ N.succ t) with (w mod 2 ^ t); [apply N.lt_le_incl, N.mod_lt, N.pow_nonzero; discriminate|].
    apply N.bits_inj. intros j. destruct (N.lt_ge_cases j t) as [H|H]; [rewrite !N.mod_pow2_bits_low by lia; reflexivity|]. rewrite N.mod_pow2_bits_high by lia.
    destruct (N.eq_dec j t) as [->|D]; [rewrite N.mod_pow2_bits_low by lia; auto|rewrite N.mod_pow2_bits_high by lia; reflexivity]. }
  exists i, g'. split; [exact R|]. exact (rand_below_total_word fuel n g i g' T Hn R).
Qed.
Print Assumptions C06_always_returns.
(** The bound is of use: a state whose first words are all rejected. *)
Example C06_rejects : let g := {| st := repeat 0 623 ++ [0xffdfffff]; idx := 623 |} in mt_typed g /\ rand_int_below 1 1000000000 g = Ret None /\ exists i g', rand_int_below 2 1000000000 g = Ret (Some (i, g')).
Proof.
  cbv zeta. split; [|split; [vm_compute; reflexivity|eexists; eexists; vm_compute; reflexivity]].
  split; [reflexivity|split; [|reflexivity]]. cbn [st]. apply Forall_app. split; [apply Forall_forall; intros z Hz; apply repeat_spec in Hz; subst; reflexivity|repeat constructor].
Qed.

(** Shuffle returns, with a rearrangement of its argument. *)
Theorem C10_shuffle_terminates : forall (C : Type) fuel g (v : list C), mt_typed g -> N.of_nat (length v) <= 2 ^ 32 -> 19999 <= N.of_nat fuel ->
  exists w g', shuffle_mt fuel g v = Ret (Some (w, g')) /\ Permutation v w /\ mt_typed g'.
Proof.
  intros C fuel g v T L F. destruct (shuffle_mt_defined fuel g v T L) as (r & R). destruct r as [[w g']|]; [exists w, g'; split; [exact R|exact (shuffle_mt_perm fuel g v w g' T L R)]|]. exfalso.
  unfold shuffle_mt in R. destruct (length v) as [|n] eqn:El; [discriminate|]. assert (Ln : N.of_nat n < 2 ^ 32) by lia. clear L El. revert g v T R. induction n as [|n IH]; intros g v T R; [discriminate|].
  cbn [shuffle_mt_from] in R. assert (W : is_word (w32 (N.of_nat (S n)))) by apply word_w32. destruct (C06_always_returns fuel _ g T W F) as (i & g' & E & _ & T'). rewrite E in R. cbn [obind] in R.
  destruct (Nat.eqb (N.to_nat i) (S n)); [apply (IH ltac:(lia) g' v T' R)|]. destruct (swap_at v (S n) (N.to_nat i)) as [v'| | |] eqn:Es; cbn [obind] in R; try discriminate. apply (IH ltac:(lia) g' v' T' R).
Qed.
Print Assumptions C10_shuffle_terminates.
Example C10_terminates_example : exists w g', shuffle_mt 3 {| st := repeat 0 624; idx := 0 |} [10; 20; 30]%nat = Ret (Some (w, g')) /\ w = [20; 30; 10]%nat.
Proof. eexists; eexists; vm_compute; split; reflexivity. Qed.
