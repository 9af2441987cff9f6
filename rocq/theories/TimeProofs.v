From Coq Require Import ZArith Bool Lia ZifyBool.
From Verif Require Import Base TimeModel TimeSpec.
Open Scope Z_scope.
Ltac Zify.zify_post_hook ::= Z.div_mod_to_equations.

Scheme texp_mut := Induction for texp Sort Prop
  with dexp_mut := Induction for dexp Sort Prop.
Combined Scheme tdexp_ind from texp_mut, dexp_mut.

Lemma slong_ret z z' : slong z = Ret z' -> z' = z /\ fits_long z = true.
Proof. unfold slong. destruct (fits_long z); intros H; inversion H; auto. Qed.

Lemma slong_ok z : fits_long z = true -> slong z = Ret z.
Proof. unfold slong; intros ->; reflexivity. Qed.

Lemma fits_long_iff z : fits_long z = true <-> LONG_MIN <= z <= LONG_MAX.
Proof. unfold fits_long. rewrite andb_true_iff, !Z.leb_le. reflexivity. Qed.

Lemma regularize_spec s u s' u' :
  -1000000 < u < 2000000 -> fits_long s = true -> regularize s u = Ret (s', u') ->
  fits_long s' = true /\ normal_usec u' /\ micros s' u' = micros s u.
Proof.
  unfold regularize, normal_usec, micros, Million. intros Hu Hs.
  destruct (1000000 <=? u) eqn:E1; [|destruct (u <? 0) eqn:E2].
  - intros H. apply obind_ret in H as (a & Ha & H). apply obind_ret in H as (b & Hb & H).
    apply slong_ret in Ha as [-> _]. apply slong_ret in Hb as [-> Hb]. inversion H; subst. split; [assumption|lia].
  - intros H. apply obind_ret in H as (a & Ha & H). apply obind_ret in H as (b & Hb & H).
    apply slong_ret in Ha as [-> _]. apply slong_ret in Hb as [-> Hb]. inversion H; subst. split; [assumption|lia].
  - intros H; inversion H; subst. split; [assumption|lia].
Qed.

Ltac fl := rewrite ?fits_long_iff in *; unfold LONG_MIN, LONG_MAX in *; lia.

Lemma regularize_total s u :
  -1000000 < u < 2000000 -> - 2 ^ 62 * 1000000 <= micros s u <= 2 ^ 62 * 1000000 ->
  exists p, regularize s u = Ret p.
Proof.
  unfold regularize, micros, Million. intros Hu Hm.
  destruct (1000000 <=? u) eqn:E1; [|destruct (u <? 0) eqn:E2]; [| |eauto].
  - rewrite slong_ok by fl. cbn [obind]. rewrite slong_ok by fl. cbn [obind]. eauto.
  - rewrite slong_ok by fl. cbn [obind]. rewrite slong_ok by fl. cbn [obind]. eauto.
Qed.

Ltac inv_bind H := let a := fresh "a" in let Ha := fresh "Ha" in apply obind_ret in H as (a & Ha & H).

Ltac solve_sound :=
  repeat match goal with
  | [ H : obind _ _ = Ret _ |- _ ] => inv_bind H
  | [ H : slong _ = Ret _ |- _ ] => apply slong_ret in H as [-> H]
  | [ p : (Z * Z)%type |- _ ] => destruct p
  | [ H : Ret _ = Ret _ |- _ ] => inversion H; subst; clear H
  end.

Lemma mk_timediff_good s u d z :
  -1000000 < u < 2000000 -> fits_long s = true -> micros s u = z ->
  mk_timediff s u true = Ret d -> td_represents d z.
Proof.
  intros Hu Hs Hz H. unfold mk_timediff in H. inv_bind H. destruct a as [s' u'].
  destruct (regularize_spec _ _ _ _ Hu Hs Ha) as (A & B & C). inversion H; subst.
  split; [reflexivity|]. exists s', u'. cbn. repeat split; try assumption; apply B.
Qed.

Lemma mk_timestamp_good s u d z :
  -1000000 < u < 2000000 -> fits_long s = true -> micros s u = z ->
  mk_timestamp s u true = Ret d -> ts_represents d z.
Proof.
  intros Hu Hs Hz H. unfold mk_timestamp in H. inv_bind H. destruct a as [s' u'].
  destruct (regularize_spec _ _ _ _ Hu Hs Ha) as (A & B & C). inversion H; subst.
  unfold ts_represents. cbn. repeat split; try assumption; apply B.
Qed.

Lemma msec_good m d : fits_long m = true -> timediff_of_msec m = Ret d -> td_represents d (msec_stored m).
Proof.
  unfold timediff_of_msec, msec_stored, td_represents. intros Hm H. inv_bind H. inversion H; subst; clear H.
  cbn [d_valid d_fields]. split; [reflexivity|].
  pose proof (Z.quot_rem' m 1000) as Hqr. pose proof (Z.rem_bound_abs m 1000) as Hb.
  pose proof (Z.rem_sign_nz m 1000). 
  destruct (m <? 0) eqn:E.
  - assert (Z.rem m 1000 <= 0) by (pose proof (Z.rem_nonpos m 1000); lia).
    inv_bind Ha. apply slong_ret in Ha0 as [-> Hf]. inv_bind Ha.
    destruct (Z.rem m 1000 <? 0) eqn:E2.
    + apply slong_ret in Ha0 as [-> _]. inversion Ha; subst. do 2 eexists; split; [reflexivity|].
      split; [assumption|]. unfold normal_usec, micros, Million. lia.
    + inversion Ha0; subst. inversion Ha; subst. do 2 eexists; split; [reflexivity|].
      split; [assumption|]. unfold normal_usec, micros. lia.
  - assert (0 <= Z.rem m 1000) by (pose proof (Z.rem_nonneg m 1000); lia).
    inversion Ha; subst. do 2 eexists; split; [reflexivity|].
    unfold normal_usec, micros. split; [|lia].
    assert (0 <= Z.quot m 1000) by (apply Z.quot_pos; lia). fl.
Qed.

Lemma time_sound :
  (forall e, tclock_ok e -> forall t, teval e = Ret t -> ts_represents t (tmean e)) /\
  (forall e, dclock_ok e -> forall d, deval e = Ret d -> td_represents d (dmean e)).
Proof.
  apply tdexp_ind; cbn [tclock_ok dclock_ok teval deval tmean dmean].
  - intros _ t H; inversion H; subst. unfold ts_represents; cbn. unfold normal_usec, micros; lia.
  - intros s u [Hs Hu] t H; inversion H; subst. unfold ts_represents; cbn. auto.
  (* XAdd *)
  - intros t IHt d IHd [Ht Hd] r H. inv_bind H. inv_bind H.
    destruct (IHt Ht _ Ha) as (V & F & N & M). destruct (IHd Hd _ Ha0) as (V' & s & u & E & F' & N' & M').
    unfold ts_add, d_read in H. rewrite E in H. cbn [obind] in H. rewrite V, V' in H. solve_sound.
    eapply mk_timestamp_good; [| |  |exact H]; unfold normal_usec, micros in *; try lia; assumption.
  - intros t IHt d IHd [Ht Hd] r H. inv_bind H. inv_bind H.
    destruct (IHt Ht _ Ha) as (V & F & N & M). destruct (IHd Hd _ Ha0) as (V' & s & u & E & F' & N' & M').
    unfold ts_sub, d_read in H. rewrite E in H. cbn [obind] in H. rewrite V, V' in H. solve_sound.
    eapply mk_timestamp_good; [| |  |exact H]; unfold normal_usec, micros in *; try lia; assumption.
  - intros t IHt d IHd [Ht Hd] r H. inv_bind H. inv_bind H.
    destruct (IHt Ht _ Ha) as (V & F & N & M). destruct (IHd Hd _ Ha0) as (V' & s & u & E & F' & N' & M').
    unfold ts_add_assign, d_read in H. rewrite E in H. cbn [obind] in H. rewrite V, V' in H. cbn [andb] in H. solve_sound.
    match goal with H : regularize _ _ = Ret _ |- _ => apply regularize_spec in H; [|unfold normal_usec, micros in *; lia|assumption] end.
    unfold ts_represents; cbn. unfold normal_usec, micros in *. intuition lia.
  - intros t IHt d IHd [Ht Hd] r H. inv_bind H. inv_bind H.
    destruct (IHt Ht _ Ha) as (V & F & N & M). destruct (IHd Hd _ Ha0) as (V' & s & u & E & F' & N' & M').
    unfold ts_sub_assign, d_read in H. rewrite E in H. cbn [obind] in H. rewrite V, V' in H. cbn [andb] in H. solve_sound.
    match goal with H : regularize _ _ = Ret _ |- _ => apply regularize_spec in H; [|unfold normal_usec, micros in *; lia|assumption] end.
    unfold ts_represents; cbn. unfold normal_usec, micros in *. intuition lia.
  (* DDiff *)
  - intros a IHa b IHb [Hta Htb] r H. inv_bind H. inv_bind H.
    destruct (IHa Hta _ Ha) as (V & F & N & M). destruct (IHb Htb _ Ha0) as (V' & F' & N' & M').
    unfold ts_diff in H. rewrite V, V' in H. solve_sound.
    eapply mk_timediff_good; [| |  |exact H]; unfold normal_usec, micros in *; try lia; assumption.
  - intros m Hm d H. apply msec_good; assumption.
  - intros a IHa b IHb [Hta Htb] r H. inv_bind H. inv_bind H.
    destruct (IHa Hta _ Ha) as (V & s & u & E & F & N & M). destruct (IHb Htb _ Ha0) as (V' & s' & u' & E' & F' & N' & M').
    unfold td_add, d_read in H. rewrite E, E' in H. cbn [obind] in H. rewrite V, V' in H. solve_sound.
    eapply mk_timediff_good; [| |  |exact H]; unfold normal_usec, micros in *; try lia; assumption.
  - intros a IHa b IHb [Hta Htb] r H. inv_bind H. inv_bind H.
    destruct (IHa Hta _ Ha) as (V & s & u & E & F & N & M). destruct (IHb Htb _ Ha0) as (V' & s' & u' & E' & F' & N' & M').
    unfold td_sub, d_read in H. rewrite E, E' in H. cbn [obind] in H. rewrite V, V' in H. solve_sound.
    eapply mk_timediff_good; [| |  |exact H]; unfold normal_usec, micros in *; try lia; assumption.
  - intros a IHa b IHb [Hta Htb] r H. inv_bind H. inv_bind H.
    destruct (IHa Hta _ Ha) as (V & s & u & E & F & N & M). destruct (IHb Htb _ Ha0) as (V' & s' & u' & E' & F' & N' & M').
    unfold td_add_assign, d_read in H. rewrite E, E' in H. cbn [obind] in H. rewrite V, V' in H. cbn [andb] in H. solve_sound.
    match goal with H : regularize _ _ = Ret _ |- _ => apply regularize_spec in H; [|unfold normal_usec, micros in *; lia|assumption] end.
    unfold td_represents; cbn. split; [reflexivity|]. do 2 eexists. split; [reflexivity|]. unfold normal_usec, micros in *. intuition lia.
  - intros a IHa b IHb [Hta Htb] r H. inv_bind H. inv_bind H.
    destruct (IHa Hta _ Ha) as (V & s & u & E & F & N & M). destruct (IHb Htb _ Ha0) as (V' & s' & u' & E' & F' & N' & M').
    unfold td_sub_assign, d_read in H. rewrite E, E' in H. cbn [obind] in H. rewrite V, V' in H. cbn [andb] in H. solve_sound.
    match goal with H : regularize _ _ = Ret _ |- _ => apply regularize_spec in H; [|unfold normal_usec, micros in *; lia|assumption] end.
    unfold td_represents; cbn. split; [reflexivity|]. do 2 eexists. split; [reflexivity|]. unfold normal_usec, micros in *. intuition lia.
  - intros a IHa Hta r H. inv_bind H.
    destruct (IHa Hta _ Ha) as (V & s & u & E & F & N & M).
    unfold td_neg, d_read in H. rewrite E in H. cbn [obind] in H. rewrite V in H. solve_sound.
    eapply mk_timediff_good; [| |  |exact H]; unfold normal_usec, micros in *; try lia; assumption.
Qed.

Lemma mk_timediff_total s u v :
  -1000000 < u < 2000000 -> - 2 ^ 62 * 1000000 <= micros s u <= 2 ^ 62 * 1000000 ->
  exists d, mk_timediff s u v = Ret d.
Proof.
  intros Hu Hm. unfold mk_timediff. destruct v; [|cbn; eauto].
  destruct (regularize_total s u Hu Hm) as [p ->]. cbn. eauto.
Qed.
Lemma mk_timestamp_total s u v :
  -1000000 < u < 2000000 -> - 2 ^ 62 * 1000000 <= micros s u <= 2 ^ 62 * 1000000 ->
  exists d, mk_timestamp s u v = Ret d.
Proof.
  intros Hu Hm. unfold mk_timestamp. destruct v; [|cbn; eauto].
  destruct (regularize_total s u Hu Hm) as [[? ?] ->]. cbn. eauto.
Qed.

Ltac sl := rewrite slong_ok by (unfold normal_usec, micros, in_range in *; fl); cbn [obind].

Lemma time_total :
  (forall e, tclock_ok e -> tin_range e -> exists t, teval e = Ret t) /\
  (forall e, dclock_ok e -> din_range e -> exists d, deval e = Ret d).
Proof.
  destruct time_sound as [TS DS].
  apply tdexp_ind; cbn [tclock_ok dclock_ok tin_range din_range teval deval].
  - eauto.
  - eauto.
  - intros t IHt d IHd [Ht Hd] (R & Rt & Rd).
    destruct (IHt Ht Rt) as [x Ex]. destruct (IHd Hd Rd) as [y Ey]. rewrite Ex, Ey. cbn [obind].
    destruct (TS _ Ht _ Ex) as (V & F & N & M). destruct (DS _ Hd _ Ey) as (V' & s & u & E & F' & N' & M').
    cbn [tmean] in R. unfold ts_add, d_read. rewrite E. cbn [obind].
    sl. sl. apply mk_timestamp_total; unfold normal_usec, micros, in_range in *; lia.
  - intros t IHt d IHd [Ht Hd] (R & Rt & Rd).
    destruct (IHt Ht Rt) as [x Ex]. destruct (IHd Hd Rd) as [y Ey]. rewrite Ex, Ey. cbn [obind].
    destruct (TS _ Ht _ Ex) as (V & F & N & M). destruct (DS _ Hd _ Ey) as (V' & s & u & E & F' & N' & M').
    cbn [tmean] in R. unfold ts_sub, d_read. rewrite E. cbn [obind].
    sl. sl. apply mk_timestamp_total; unfold normal_usec, micros, in_range in *; lia.
  - intros t IHt d IHd [Ht Hd] (R & Rt & Rd).
    destruct (IHt Ht Rt) as [x Ex]. destruct (IHd Hd Rd) as [y Ey]. rewrite Ex, Ey. cbn [obind].
    destruct (TS _ Ht _ Ex) as (V & F & N & M). destruct (DS _ Hd _ Ey) as (V' & s & u & E & F' & N' & M').
    cbn [tmean] in R. unfold ts_add_assign, d_read. rewrite E. cbn [obind].
    sl. sl. rewrite V, V'. cbn [andb]. 
    match goal with |- context[regularize ?a ?b] => destruct (regularize_total a b) as [[? ?] ->] end;
    [unfold normal_usec, micros, in_range in *; lia..|]. cbn; eauto.
  - intros t IHt d IHd [Ht Hd] (R & Rt & Rd).
    destruct (IHt Ht Rt) as [x Ex]. destruct (IHd Hd Rd) as [y Ey]. rewrite Ex, Ey. cbn [obind].
    destruct (TS _ Ht _ Ex) as (V & F & N & M). destruct (DS _ Hd _ Ey) as (V' & s & u & E & F' & N' & M').
    cbn [tmean] in R. unfold ts_sub_assign, d_read. rewrite E. cbn [obind].
    sl. sl. rewrite V, V'. cbn [andb]. 
    match goal with |- context[regularize ?a ?b] => destruct (regularize_total a b) as [[? ?] ->] end;
    [unfold normal_usec, micros, in_range in *; lia..|]. cbn; eauto.
  - intros a IHa b IHb [Hta Htb] (R & Ra & Rb).
    destruct (IHa Hta Ra) as [x Ex]. destruct (IHb Htb Rb) as [y Ey]. rewrite Ex, Ey. cbn [obind].
    destruct (TS _ Hta _ Ex) as (V & F & N & M). destruct (TS _ Htb _ Ey) as (V' & F' & N' & M').
    cbn [dmean] in R. unfold ts_diff. 
    sl. sl. apply mk_timediff_total; unfold normal_usec, micros, in_range in *; lia.
  - intros m Hm _. unfold timediff_of_msec.
    pose proof (Z.quot_rem' m 1000) as Hqr. pose proof (Z.rem_bound_abs m 1000) as Hb.
    destruct (m <? 0) eqn:E; [|cbn; eauto].
    assert (Z.rem m 1000 <= 0) by (pose proof (Z.rem_nonpos m 1000); lia).
    rewrite slong_ok by fl. cbn [obind].
    destruct (Z.rem m 1000 <? 0) eqn:E2; cbn [obind]; [rewrite slong_ok by (unfold Million; fl)|]; cbn; eauto.
  - intros a IHa b IHb [Hta Htb] (R & Ra & Rb).
    destruct (IHa Hta Ra) as [x Ex]. destruct (IHb Htb Rb) as [y Ey]. rewrite Ex, Ey. cbn [obind].
    destruct (DS _ Hta _ Ex) as (V & s & u & E & F & N & M). destruct (DS _ Htb _ Ey) as (V' & s' & u' & E' & F' & N' & M').
    cbn [dmean] in R. unfold td_add, d_read. rewrite E, E'. cbn [obind].
    sl. sl. apply mk_timediff_total; unfold normal_usec, micros, in_range in *; lia.
  - intros a IHa b IHb [Hta Htb] (R & Ra & Rb).
    destruct (IHa Hta Ra) as [x Ex]. destruct (IHb Htb Rb) as [y Ey]. rewrite Ex, Ey. cbn [obind].
    destruct (DS _ Hta _ Ex) as (V & s & u & E & F & N & M). destruct (DS _ Htb _ Ey) as (V' & s' & u' & E' & F' & N' & M').
    cbn [dmean] in R. unfold td_sub, d_read. rewrite E, E'. cbn [obind].
    sl. sl. apply mk_timediff_total; unfold normal_usec, micros, in_range in *; lia.
  - intros a IHa b IHb [Hta Htb] (R & Ra & Rb).
    destruct (IHa Hta Ra) as [x Ex]. destruct (IHb Htb Rb) as [y Ey]. rewrite Ex, Ey. cbn [obind].
    destruct (DS _ Hta _ Ex) as (V & s & u & E & F & N & M). destruct (DS _ Htb _ Ey) as (V' & s' & u' & E' & F' & N' & M').
    cbn [dmean] in R. unfold td_add_assign, d_read. rewrite E, E'. cbn [obind].
    sl. sl. rewrite V, V'. cbn [andb].
    match goal with |- context[regularize ?a ?b] => destruct (regularize_total a b) as [[? ?] ->] end;
    [unfold normal_usec, micros, in_range in *; lia..|]. cbn; eauto.
  - intros a IHa b IHb [Hta Htb] (R & Ra & Rb).
    destruct (IHa Hta Ra) as [x Ex]. destruct (IHb Htb Rb) as [y Ey]. rewrite Ex, Ey. cbn [obind].
    destruct (DS _ Hta _ Ex) as (V & s & u & E & F & N & M). destruct (DS _ Htb _ Ey) as (V' & s' & u' & E' & F' & N' & M').
    cbn [dmean] in R. unfold td_sub_assign, d_read. rewrite E, E'. cbn [obind].
    sl. sl. rewrite V, V'. cbn [andb].
    match goal with |- context[regularize ?a ?b] => destruct (regularize_total a b) as [[? ?] ->] end;
    [unfold normal_usec, micros, in_range in *; lia..|]. cbn; eauto.
  - intros a IHa Hta (R & Ra).
    destruct (IHa Hta Ra) as [x Ex]. rewrite Ex. cbn [obind].
    destruct (DS _ Hta _ Ex) as (V & s & u & E & F & N & M).
    cbn [dmean] in R. unfold td_neg, d_read. rewrite E. cbn [obind].
    sl. sl. apply mk_timediff_total; unfold normal_usec, micros, in_range in *; lia.
Qed.

(** Order. *)
Lemma ts_lt_iff a b z1 z2 : ts_represents a z1 -> ts_represents b z2 -> ts_lt a b = (z1 <? z2).
Proof.
  intros (_ & _ & N & M) (_ & _ & N' & M'). unfold ts_lt, normal_usec, micros in *.
  destruct (t_sec a =? t_sec b) eqn:E; lia.
Qed.
Lemma ts_eq_iff a b z1 z2 : ts_represents a z1 -> ts_represents b z2 -> ts_eq a b = (z1 =? z2).
Proof.
  intros (_ & _ & N & M) (_ & _ & N' & M'). unfold ts_eq, normal_usec, micros in *. lia.
Qed.
Lemma td_lt_iff a b z1 z2 : td_represents a z1 -> td_represents b z2 -> td_lt a b = Ret (z1 <? z2).
Proof.
  intros (_ & s & u & E & _ & N & M) (_ & s' & u' & E' & _ & N' & M').
  unfold td_lt, d_read, normal_usec, micros in *. rewrite E, E'. cbn. f_equal. lia.
Qed.
Lemma td_eq_iff a b z1 z2 : td_represents a z1 -> td_represents b z2 -> td_eq a b = Ret (z1 =? z2).
Proof.
  intros (_ & s & u & E & _ & N & M) (_ & s' & u' & E' & _ & N' & M').
  unfold td_eq, d_read, normal_usec, micros in *. rewrite E, E'. cbn. f_equal. lia.
Qed.

(** Milliseconds. *)
Lemma msec_roundtrip_iff m : 
  -2 ^ 62 <= m <= 2 ^ 62 ->
  exists r, obind (timediff_of_msec m) milliseconds = Ret r /\
  (r = m <-> (0 <= m /\ m mod 1000 = 0) \/ (m < 0 /\ m mod 1000 = 999)).
Proof.
  intros Hm. unfold timediff_of_msec.
  pose proof (Z.quot_rem' m 1000) as Hqr. pose proof (Z.rem_bound_abs m 1000) as Hb.
  destruct (m <? 0) eqn:E.
  - assert (Z.rem m 1000 <= 0) by (pose proof (Z.rem_nonpos m 1000); lia).
    rewrite slong_ok by fl. cbn [obind].
    destruct (Z.rem m 1000 <? 0) eqn:E2; cbn [obind].
    + rewrite slong_ok by (unfold Million; fl). cbn [obind]. unfold milliseconds, d_read. cbn [d_fields obind].
      rewrite slong_ok by fl. cbn [obind].
      assert (Hq : (Z.rem m 1000 + Million) ÷ 1000 = 999).
      { unfold Million. rewrite Z.quot_div_nonneg by lia. lia. }
      rewrite Hq. rewrite slong_ok by fl. eexists; split; [reflexivity|]. lia.
    + unfold milliseconds, d_read. cbn [d_fields obind]. rewrite slong_ok by fl. cbn [obind].
      assert (Hz : Z.rem m 1000 = 0) by lia. rewrite Hz. change (0 ÷ 1000) with 0.
      rewrite slong_ok by fl. eexists; split; [reflexivity|]. lia.
  - assert (0 <= Z.rem m 1000) by (pose proof (Z.rem_nonneg m 1000); lia).
    cbn [obind]. unfold milliseconds, d_read. cbn [d_fields obind].
    rewrite slong_ok by fl. cbn [obind]. rewrite (Z.quot_small (Z.rem m 1000)) by lia.
    rewrite slong_ok by fl. eexists; split; [reflexivity|]. lia.
Qed.

(** Validity of results for initialised operands. *)

Lemma td_ops_valid a b r :
  (td_add a b = Ret r \/ td_sub a b = Ret r \/ td_add_assign a b = Ret r \/ td_sub_assign a b = Ret r) ->
  d_valid r = d_valid a && d_valid b.
Proof.
  unfold td_add, td_sub, td_add_assign, td_sub_assign, mk_timediff.
  intros [H|[H|[H|H]]]; solve_sound; reflexivity.
Qed.
Lemma td_neg_valid a r : td_neg a = Ret r -> d_valid r = d_valid a.
Proof. unfold td_neg, mk_timediff. intros H; solve_sound; reflexivity. Qed.
Lemma ts_ops_valid a d r :
  (ts_add a d = Ret r \/ ts_sub a d = Ret r \/ ts_add_assign a d = Ret r \/ ts_sub_assign a d = Ret r) ->
  t_valid r = t_valid a && d_valid d.
Proof.
  unfold ts_add, ts_sub, ts_add_assign, ts_sub_assign, mk_timestamp.
  intros [H|[H|[H|H]]]; solve_sound; reflexivity.
Qed.
Lemma ts_diff_valid a b r : ts_diff a b = Ret r -> d_valid r = t_valid a && t_valid b.
Proof. unfold ts_diff, mk_timediff. intros H; solve_sound; reflexivity. Qed.

(** Round trips between stamps and differences. *)


Lemma ts_is_unique a b z : ts_represents a z -> ts_represents b z -> a = b.
Proof.
  intros (V & _ & N & M) (V' & _ & N' & M'). destruct a as [va sa ua], b as [vb sb ub]; cbn in *.
  unfold normal_usec, micros in *. subst va vb. f_equal; lia.
Qed.
Lemma td_is_unique a b z : td_represents a z -> td_represents b z -> a = b.
Proof.
  intros (V & s & u & E & _ & N & M) (V' & s' & u' & E' & _ & N' & M'). destruct a as [va fa], b as [vb fb]; cbn in *.
  unfold normal_usec, micros in *. subst. f_equal. f_equal. f_equal; lia.
Qed.

Lemma ts_diff_ok a b x y : ts_represents a x -> ts_represents b y -> in_range x -> in_range y ->
  exists d, ts_diff a b = Ret d /\ td_represents d (x - y).
Proof.
  intros (V & F & N & M) (V' & F' & N' & M') Hx Hy. unfold ts_diff. rewrite V, V'. sl. sl.
  destruct (mk_timediff_total (t_sec a - t_sec b) (t_usec a - t_usec b) true) as [d E];
    [unfold normal_usec, micros, in_range in *; lia..|].
  exists d; split; [exact E|].
  eapply mk_timediff_good; [| | |exact E]; unfold normal_usec, micros, in_range in *; try lia; fl.
Qed.

Lemma ts_add_ok a d x y : ts_represents a x -> td_represents d y -> in_range x -> in_range y ->
  exists r, ts_add a d = Ret r /\ ts_represents r (x + y).
Proof.
  intros (V & F & N & M) (V' & s & u & E & F' & N' & M') Hx Hy. unfold ts_add, d_read. rewrite E. cbn [obind].
  rewrite V, V'. sl. sl.
  destruct (mk_timestamp_total (t_sec a + s) (t_usec a + u) true) as [r Er];
    [unfold normal_usec, micros, in_range in *; lia..|].
  exists r; split; [exact Er|].
  eapply mk_timestamp_good; [| | |exact Er]; unfold normal_usec, micros, in_range in *; try lia; fl.
Qed.

Lemma ts_sub_ok a d x y : ts_represents a x -> td_represents d y -> in_range x -> in_range y ->
  exists r, ts_sub a d = Ret r /\ ts_represents r (x - y).
Proof.
  intros (V & F & N & M) (V' & s & u & E & F' & N' & M') Hx Hy. unfold ts_sub, d_read. rewrite E. cbn [obind].
  rewrite V, V'. sl. sl.
  destruct (mk_timestamp_total (t_sec a - s) (t_usec a - u) true) as [r Er];
    [unfold normal_usec, micros, in_range in *; lia..|].
  exists r; split; [exact Er|].
  eapply mk_timestamp_good; [| | |exact Er]; unfold normal_usec, micros, in_range in *; try lia; fl.
Qed.

Lemma diff_add_roundtrip a b x y : ts_represents a x -> ts_represents b y -> small x -> small y ->
  exists d, ts_diff a b = Ret d /\ ts_add b d = Ret a.
Proof.
  intros Ha Hb Hx Hy. destruct (ts_diff_ok a b x y) as (d & E & Hd); auto; try (unfold small, in_range in *; lia).
  destruct (ts_add_ok b d y (x - y)) as (r & Er & Hr); auto; try (unfold small, in_range in *; lia).
  exists d; split; [exact E|]. rewrite Er. f_equal. replace (y + (x - y)) with x in Hr by lia.
  eapply ts_is_unique; eassumption.
Qed.

Lemma add_sub_roundtrip a d x y : ts_represents a x -> td_represents d y -> small x -> small y ->
  exists r, ts_add a d = Ret r /\ ts_sub r d = Ret a.
Proof.
  intros Ha Hd Hx Hy. destruct (ts_add_ok a d x y) as (r & E & Hr); auto; try (unfold small, in_range in *; lia).
  destruct (ts_sub_ok r d (x + y) y) as (r' & Er & Hr'); auto; try (unfold small, in_range in *; lia).
  exists r; split; [exact E|]. rewrite Er. f_equal. replace (x + y - y) with x in Hr' by lia.
  eapply ts_is_unique; eassumption.
Qed.

Lemma ts_add_monotone a b d x y z : ts_represents a x -> ts_represents b y -> td_represents d z ->
  small x -> small y -> small z ->
  exists ra rb, ts_add a d = Ret ra /\ ts_add b d = Ret rb /\ ts_lt ra rb = ts_lt a b.
Proof.
  intros Ha Hb Hd Hx Hy Hz.
  destruct (ts_add_ok a d x z) as (ra & E & Hra); auto; try (unfold small, in_range in *; lia).
  destruct (ts_add_ok b d y z) as (rb & E' & Hrb); auto; try (unfold small, in_range in *; lia).
  exists ra, rb; repeat split; auto.
  rewrite (ts_lt_iff ra rb _ _ Hra Hrb), (ts_lt_iff a b _ _ Ha Hb). lia.
Qed.

Lemma ts_compare_all a b x y : ts_represents a x -> ts_represents b y ->
  ts_lt a b = (x <? y) /\ ts_gt a b = (y <? x) /\ ts_le a b = (x <=? y) /\ ts_ge a b = (y <=? x) /\
  ts_eq a b = (x =? y) /\ ts_ne a b = negb (x =? y).
Proof.
  intros Ha Hb. unfold ts_gt, ts_le, ts_ge, ts_ne.
  rewrite (ts_lt_iff a b _ _ Ha Hb), (ts_lt_iff b a _ _ Hb Ha), (ts_eq_iff a b _ _ Ha Hb), (ts_eq_iff b a _ _ Hb Ha).
  repeat split; lia.
Qed.
Lemma td_compare_all a b x y : td_represents a x -> td_represents b y ->
  td_lt a b = Ret (x <? y) /\ td_gt a b = Ret (y <? x) /\ td_le a b = Ret (x <=? y) /\ td_ge a b = Ret (y <=? x) /\
  td_eq a b = Ret (x =? y) /\ td_ne a b = Ret (negb (x =? y)).
Proof.
  intros Ha Hb. unfold td_gt, td_le, td_ge, td_ne.
  rewrite (td_lt_iff a b _ _ Ha Hb), (td_lt_iff b a _ _ Hb Ha), (td_eq_iff a b _ _ Ha Hb), (td_eq_iff b a _ _ Hb Ha).
  cbn. repeat split; f_equal; lia.
Qed.
