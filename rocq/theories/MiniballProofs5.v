(** The pivoting search computes the smallest ball and ends, in exact arithmetic. *)
From Coq Require Import Reals List Lra Lia Bool Permutation Arith Classical.
From Flocq Require Import Core.Raux.
From Verif Require Import Base Scalar RSpec RLib RotSpec MatLib VecProofs4 MiniballModel MiniballSpec MiniballProofs MiniballProofs2 MiniballProofs3 MiniballProofs4.
Import ListNotations.
Open Scope R_scope.

(** all lists of at most n elements of l *)
Fixpoint lists_upto {A} (l : list A) (n : nat) : list (list A) :=
  match n with O => [[]] | S k => [] :: flat_map (fun s => map (fun x => x :: s) l) (lists_upto l k) end.
Lemma lists_upto_in {A} (l s : list A) n : incl s l -> (length s <= n)%nat -> In s (lists_upto l n).
Proof.
  revert s. induction n as [|n IH]; intros [|x s] I L; cbn in *; try lia; auto. right. apply in_flat_map. exists s. split.
  - apply IH; [intros y J; apply I; right; auto|lia].
  - apply in_map_iff. exists x. split; auto. apply I. left. auto.
Qed.
(** a relation with at most one value: the finitely many values it takes on a finite list *)
Lemma finite_values {A} (P : A -> R -> Prop) (l : list A) : (forall a x y, P a x -> P a y -> x = y) -> exists V, forall a x, In a l -> P a x -> In x V.
Proof.
  intros U. induction l as [|a l (V & HV)]; [exists []; intros a x []|].
  destruct (classic (exists x, P a x)) as [(x & Px)|N].
  - exists (x :: V). intros b y [<-|I] Py; [left; eapply U; eauto|right; eauto].
  - exists V. intros b y [<-|I] Py; [exfalso; eauto|eauto].
Qed.

Section Pivot.
Context (eps : Epsilon).
Variable d : nat.
Variable tau : R.
Hypothesis tau_pos : 0 <= tau.
Variable All : list (list R).
Variable R2 : R.
Variable c0 : nat -> R.
Hypothesis Spread : forall b p, incl b All -> In p All -> in_affine d b (pc p) \/ forall x, in_affine d b x -> tau * R2 <= 2 * dist2 d (pc p) x.
Hypothesis Around : encloses d c0 R2 All.
Notation good := (good d R2).

Lemma max_excess_ok st t : (t <= length (mL st))%nat -> let (e, pv) := max_excess d st t in
  (e <= 0 /\ forall p, In p (skipn t (mL st)) -> pw d (cc (mB st)) (bcr (mB st)) (pc p) <= 0) \/
  (0 < e /\ exists k p, pv = Some k /\ nth_error (mL st) k = Some p /\ (t <= k)%nat /\ 0 < pw d (cc (mB st)) (bcr (mB st)) (pc p)).
Proof.
  intros Lt. unfold max_excess. set (f := fun (acc : R * option nat) (kp : nat * list R) => _).
  assert (G : forall l k acc, (forall i p, nth_error l i = Some p -> nth_error (mL st) (k + i) = Some p) -> (t <= k)%nat ->
    (fst acc <= 0 \/ (0 < fst acc /\ exists k p, snd acc = Some k /\ nth_error (mL st) k = Some p /\ (t <= k)%nat /\ 0 < pw d (cc (mB st)) (bcr (mB st)) (pc p))) ->
    let r := fold_left f (combine (seq k (length l)) l) acc in
    fst acc <= fst r /\ (forall p, In p l -> pw d (cc (mB st)) (bcr (mB st)) (pc p) <= fst r) /\
    (fst r <= 0 \/ (0 < fst r /\ exists k p, snd r = Some k /\ nth_error (mL st) k = Some p /\ (t <= k)%nat /\ 0 < pw d (cc (mB st)) (bcr (mB st)) (pc p)))).
  { induction l as [|p l IH]; intros k acc Hl Hk Ha; cbn [length seq combine fold_left]; [cbn zeta; split; [lra|split; [intros p []|exact Ha]]|].
    assert (Fv : f acc (k, p) = if Rlt_bool (fst acc) (pw d (cc (mB st)) (bcr (mB st)) (pc p)) then (pw d (cc (mB st)) (bcr (mB st)) (pc p), Some k) else acc).
    { unfold f. cbn [fst snd]. rewrite <- (excess_pw eps d). reflexivity. }
    rewrite Fv. destruct (Rlt_bool_spec (fst acc) (pw d (cc (mB st)) (bcr (mB st)) (pc p))) as [O|O].
    - destruct (IH (S k) (pw d (cc (mB st)) (bcr (mB st)) (pc p), Some k)) as (I1 & I2 & I3); cbn [fst snd] in *.
      + intros i q E. replace (S k + i)%nat with (k + S i)%nat by lia. apply Hl. exact E.
      + lia.
      + destruct (Rle_lt_dec (pw d (cc (mB st)) (bcr (mB st)) (pc p)) 0); [left; auto|right]. split; auto. exists k, p. split; auto. split; auto. replace k with (k + 0)%nat by lia. apply Hl. reflexivity.
      + split; [lra|]. split; auto. intros q [<-|J]; auto.
    - destruct (IH (S k) acc) as (I1 & I2 & I3); auto.
      + intros i q E. replace (S k + i)%nat with (k + S i)%nat by lia. apply Hl. exact E.
      + split; auto. split; auto. intros q [<-|J]; auto. lra. }
  specialize (G (skipn t (mL st)) t (@n0 R (Rnum eps), None)). rewrite skipn_length in G. change (@n0 R (Rnum eps)) with 0 in *. cbn [fst snd] in G.
  destruct (fold_left f (combine (seq t (length (mL st) - t)) (skipn t (mL st))) (0, None)) as (e & pv).
  destruct G as (G1 & G2 & G3); auto; [|left; lra|].
  - intros i p E. rewrite <- (firstn_skipn t (mL st)), nth_error_app2; rewrite firstn_length; [|lia]. rewrite <- E. f_equal. lia.
  - cbn [fst snd] in *. destruct G3 as [L|(L & X)]; [left|right; auto]. split; auto. intros p I. specialize (G2 p I). lra.
Qed.

(** a good state's radius depends only on its support *)
Definition support_radius (s : list (list R)) (r : R) : Prop := exists c, touches d c r s /\ cert d c s [].
Lemma support_radius_fun s r r' : support_radius s r -> support_radius s r' -> r = r'.
Proof.
  intros (c & T & C) (c' & T' & C').
  assert (A : r + dist2 d c c' <= r'). { apply (cert_min d c r s [] c' r'); auto; [intros p []|]. split; [intros p I; rewrite (T' p I); lra|intros p []]. }
  assert (B : r' + dist2 d c' c <= r). { apply (cert_min d c' r' s [] c r); auto; [intros p []|]. split; [intros p I; rewrite (T p I); lra|intros p []]. }
  pose proof (dist2_nonneg d c c'). pose proof (dist2_nonneg d c' c). lra.
Qed.

Definition inv (t : nat) (st : mbstate R) : Prop :=
  Permutation All (mL st) /\ basis_ok d (mB st) [] /\ (msup st <= t <= length (mL st))%nat /\ (1 <= t)%nat /\
  good (mB st) (firstn (msup st) (mL st)) (firstn t (mL st)) [].
Definition done (st : mbstate R) : Prop :=
  Permutation All (mL st) /\ bs (mB st) = length (firstn (msup st) (mL st)) /\ (msup st <= length (mL st))%nat /\
  encloses d (cc (mB st)) (bcr (mB st)) All /\ on_sphere d (cc (mB st)) (bcr (mB st)) (firstn (msup st) (mL st)) /\
  in_hull d (firstn (msup st) (mL st)) (cc (mB st)).

Lemma feasible_any P : incl P All -> feasible d R2 P [].
Proof. intros I. exists c0, R2. split; [|lra]. split; [|intros q []]. intros q J. specialize (Around q (I q J)). unfold pw. lra. Qed.

Lemma good_left b s P : good b s P [] -> P <> [] -> holds d (cc b) (bcr b) P [] /\ touches d (cc b) (bcr b) s /\ cert d (cc b) s [] /\ bcr b <= R2.
Proof. intros (_ & [G|(_ & E & _)]) N; [exact G|congruence]. Qed.

Lemma good_done st : Permutation All (mL st) -> (msup st <= length (mL st))%nat -> mL st <> [] -> good (mB st) (firstn (msup st) (mL st)) (mL st) [] -> done st.
Proof.
  intros P M Ne G. destruct (good_left _ _ _ G Ne) as (Hd & Ts & Ce & Rb). destruct G as (Es & _). split; auto. split; [cbn in Es; lia|]. split; auto. split; [|split].
  - intros p I. pose proof (proj1 Hd p (Permutation_in _ P I)) as X. unfold pw in X. lra.
  - intros p I. specialize (Ts p I). unfold pw in Ts. lra.
  - destruct Ce as (u & w & Eu & Ew & Pu & Tt & E). destruct w; [|discriminate]. exists u. split; auto. split; auto. cbn in Tt. split; [lra|]. intros i Hi. rewrite (E i Hi). cbn. ring.
Qed.

Lemma pivot_round t st : inv t st ->
  (exists e pv, max_excess d st t = (e, pv) /\ e <= 0 /\ done st) \/
  (exists e k p b' st2, max_excess d st t = (e, Some k) /\ 0 < e /\ nth_error (mL st) k = Some p /\ push d tau (mB st) p = Ret (true, b') /\
    mtf_mb d tau (S (length (mL st))) (msup st) (mkMB (mL st) (msup st) b') = Some (Ret st2) /\
    let st3 := move_to_front k (mkMB (mL st2) (msup st2) (pop (mB st2))) in
    bcr (mB st) < bcr (mB st3) /\ inv (shift_pos k (if Nat.eqb (msup st) k then S (msup st) else msup st)) st3).
Proof.
  intros (Pm & K & (Ms & Lt) & T1 & G). pose proof (max_excess_ok st t Lt) as M. destruct (max_excess d st t) as (e & pv).
  assert (NeF : forall n, (1 <= n)%nat -> (n <= length (mL st))%nat -> firstn n (mL st) <> []).
  { intros n N1 N2 E. apply (f_equal (@length (list R))) in E. rewrite firstn_length in E. cbn in E. lia. }
  destruct (good_left _ _ _ G (NeF t T1 Lt)) as (Hd & Ts & Ce & Rb).
  destruct M as [(Le & Out)|(Le & k & p & -> & Ep & Hk & Out)].
  - left. exists e, pv. split; auto. split; auto. apply good_done; auto; [lia| |].
    + intros E. apply (NeF t T1 Lt). rewrite E. now destruct t.
    + destruct G as (Es & _). split; auto. left. split; auto. split; [|intros q []]. intros q I. rewrite <- (firstn_skipn t (mL st)) in I. apply in_app_iff in I as [I|I]; auto. apply (proj1 Hd); auto.
  - right. assert (Lk : (k < length (mL st))%nat) by (apply nth_error_Some; congruence).
    set (s := firstn (msup st) (mL st)) in *.
    assert (IP : incl (mL st) All) by (intros q I; eapply Permutation_in; [apply Permutation_sym; exact Pm|auto]).
    assert (Ip : In p All) by (apply IP; apply nth_error_In in Ep; auto).
    assert (Gs : good (mB st) s s []).
    { destruct G as (Es & _). split; auto. left. split; auto. split; [|intros q []]. intros q I. rewrite (Ts q I). lra. }
    assert (Is : incl s All) by (intros q I; apply IP; eapply incl_firstn; eauto).
    destruct (push_step eps d tau tau_pos All R2 Spread (mB st) s s [] p K Gs) as (b' & Epush & Fh & Fe2); auto.
    { intros q I; auto. } { pose proof (ok_len _ _ _ K) as X. cbn in X. lia. } { intros q []. }
    { apply feasible_any. intros q [<-|I]; auto. }
    cbn [app] in *.
    destruct (mtf_ok eps d tau tau_pos All R2 Spread (S (length (mL st))) (msup st) (mkMB (mL st) (msup st) b') [p]) as (st2 & E2 & P2 & S2 & K2 & H2 & G2); cbn [mL mB msup] in *; try lia; auto.
    { apply Fh. } { eapply fresh_good; eauto. } { intros q [<-|[]]; auto. }
    exists e, k, p, b', st2. split; auto. split; auto. split; auto. split; auto. split; auto. cbn zeta.
    assert (PL : Permutation (mL st) (mL st2)).
    { rewrite <- (firstn_skipn (msup st) (mL st)), <- (firstn_skipn (msup st) (mL st2)), S2. apply Permutation_app; auto. }
    assert (LL : length (mL st2) = length (mL st)) by (symmetry; apply Permutation_length; auto).
    assert (Ep2 : nth_error (mL st2) k = Some p).
    { rewrite <- Ep. rewrite <- (firstn_skipn (msup st) (mL st)), <- (firstn_skipn (msup st) (mL st2)), S2. rewrite !nth_error_app2; rewrite !firstn_length; try lia. f_equal. lia. }
    set (st3 := move_to_front k (mkMB (mL st2) (msup st2) (pop (mB st2)))).
    assert (E3 : mL st3 = p :: firstn k (mL st2) ++ skipn (S k) (mL st2)) by (unfold st3, move_to_front; cbn [mL]; apply to_front_split; auto).
    assert (Ms3 : msup st3 = S (msup st2)).
    { unfold st3, move_to_front. cbn [msup]. unfold shift_pos. destruct (Nat.eqb_spec (msup st2) k) as [E|Ne].
      - rewrite E. destruct (Nat.ltb_spec (S k) k); [lia|]. destruct (Nat.eqb_spec (S k) k); lia.
      - destruct (Nat.ltb_spec (msup st2) k); lia. }
    assert (Tn : shift_pos k (if Nat.eqb (msup st) k then S (msup st) else msup st) = S (msup st)).
    { unfold shift_pos. destruct (Nat.eqb_spec (msup st) k) as [E|Ne].
      - rewrite E. destruct (Nat.ltb_spec (S k) k); [lia|]. destruct (Nat.eqb_spec (S k) k); lia.
      - destruct (Nat.ltb_spec (msup st) k); lia. }
    assert (G3 : good (mB st3) (firstn (msup st3) (mL st3)) (firstn (S (msup st)) (mL st3)) []).
    { change (mB st3) with (pop (mB st2)). rewrite Ms3, E3. cbn [firstn].
      assert (Lf : length (firstn k (mL st2)) = k) by (rewrite firstn_length; lia).
      rewrite !firstn_app_le by lia. rewrite !firstn_firstn. rewrite !Nat.min_l by lia.
      apply after_step with (b := mB st) (S := s) (P := s); auto.
      - intros q I; auto.
      - intros q I. replace (msup st2) with (Nat.min (msup st2) (msup st)) in I by lia. rewrite <- firstn_firstn in I. eapply incl_firstn; eauto. }
    assert (Lf3 : length (mL st3) = length (mL st)).
    { unfold st3, move_to_front. cbn [mL]. rewrite <- LL. symmetry. apply Permutation_length, to_front_perm. }
    split.
    + assert (N3 : firstn (S (msup st)) (mL st3) <> []) by (rewrite E3; discriminate).
      destruct (good_left _ _ _ G3 N3) as (Hd3 & _). assert (Fp : pw d (cc (mB st3)) (bcr (mB st3)) (pc p) <= 0). { apply (proj1 Hd3). rewrite E3. left. auto. }
      assert (C : bcr (mB st) + dist2 d (cc (mB st)) (cc (mB st3)) <= bcr (mB st3)).
      { apply (cert_min d _ _ s []); auto; [intros q []|]. split; [|intros q []]. intros q I. apply (proj1 Hd3). rewrite E3. cbn [firstn]. right.
        rewrite firstn_app_le by (rewrite firstn_length; lia). rewrite firstn_firstn, Nat.min_l by lia. eapply Permutation_in; [exact P2|auto]. }
      destruct (Rle_lt_dec (bcr (mB st3)) (bcr (mB st))) as [L|L]; auto. exfalso.
      pose proof (dist2_nonneg d (cc (mB st)) (cc (mB st3))) as D. assert (D0 : dist2 d (cc (mB st)) (cc (mB st3)) = 0) by lra.
      assert (Ec : forall i, (i < d)%nat -> cc (mB st) i = cc (mB st3) i). { intros i Hi. pose proof (norm2_zero d _ D0 i Hi) as X. cbv beta in X. lra. }
      rewrite (pw_ext_c d (cc (mB st)) (cc (mB st3))) in Out by auto. unfold pw in Fp, Out. lra.
    + rewrite Tn. split; [|split; [|split; [|split]]]; auto; try lia.
      * etransitivity; [exact Pm|]. etransitivity; [exact PL|apply to_front_perm].
      * unfold st3, move_to_front. cbn [mB]. apply pop_ok with (p := p); auto.
Qed.

Lemma above_count (V : list R) r r' : r < r' -> In r' V -> (length (filter (fun v => Rlt_bool r' v) V) < length (filter (fun v => Rlt_bool r v) V))%nat.
Proof.
  intros L I. assert (W : forall l, (length (filter (fun v => Rlt_bool r' v) l) <= length (filter (fun v => Rlt_bool r v) l))%nat).
  { induction l as [|v l IH]; cbn; auto. destruct (Rlt_bool_spec r' v), (Rlt_bool_spec r v); cbn; try lia; lra. }
  induction V as [|v V IH]; [destruct I|]. cbn. destruct I as [->|I].
  - specialize (W V). destruct (Rlt_bool_spec r' r'); [lra|]. destruct (Rlt_bool_spec r r'); cbn; [lia|lra].
  - specialize (IH I). destruct (Rlt_bool_spec r' v), (Rlt_bool_spec r v); cbn; try lia; lra.
Qed.

Lemma pivot_ok : exists N, forall fuel t st, (N < fuel)%nat -> inv t st -> exists st', pivot_loop d tau fuel t st = Some (Ret st') /\ done st'.
Proof.
  destruct (finite_values support_radius (lists_upto All (length All)) (support_radius_fun)) as (V & HV).
  assert (InV : forall t st, inv t st -> In (bcr (mB st)) V).
  { intros t st (Pm & K & (Ms & Lt) & T1 & G). assert (Ne : firstn t (mL st) <> []) by (intros E; apply (f_equal (@length (list R))) in E; rewrite firstn_length in E; cbn in E; lia).
    destruct (good_left _ _ _ G Ne) as (Hd & Ts & Ce & Rb). apply (HV (firstn (msup st) (mL st))); [|exists (cc (mB st)); auto].
    apply lists_upto_in.
    - intros q I. eapply Permutation_in; [apply Permutation_sym; exact Pm|]. eapply incl_firstn; eauto.
    - rewrite (Permutation_length Pm), firstn_length. lia. }
  assert (Main : forall fuel t st, (length (filter (fun v => Rlt_bool (bcr (mB st)) v) V) < fuel)%nat -> inv t st -> exists st', pivot_loop d tau fuel t st = Some (Ret st') /\ done st').
  { induction fuel as [|fuel IH]; intros t st Lf I; [lia|]. cbn [pivot_loop].
    destruct (pivot_round t st I) as [(e & pv & E & Le & D)|(e & k & p & b' & st2 & E & Le & Ep & Epush & E2 & Lr & I3)]; rewrite E.
    - cbn [nleb Rnum]. change (@n0 R (Rnum eps)) with 0. rewrite Rle_bool_true by auto. exists st. auto.
    - cbn [nleb nltb Rnum]. change (@n0 R (Rnum eps)) with 0. rewrite Rle_bool_false by auto. rewrite Ep, Epush. cbn [rbind fst snd]. rewrite E2. cbn [rbind].
      rewrite Rlt_bool_true by exact Lr. apply IH; auto. pose proof (above_count V _ _ Lr (InV _ _ I3)). lia. }
  exists (length V). intros fuel t st Lf I. apply (Main fuel t st); auto. assert (W : forall f (l : list R), (length (filter f l) <= length l)%nat) by (intros f; induction l as [|x l IH]; cbn; auto; destruct (f x); cbn; lia).
  specialize (W (fun v => Rlt_bool (bcr (mB st)) v) V). lia.
Qed.

Lemma reset_ok0 b : basis_ok d (basis_reset d b) [] -> good (basis_reset d b) [] [] [].
Proof. intros K. split; [reflexivity|]. right. split; auto. split; auto. split; auto. cbn [basis_reset bcr]. change (@n1 R (Rnum eps)) with 1. cbn [nopp Rnum]. lra. Qed.

Lemma build_ok : All <> [] -> exists N, forall fuel pv b sup, (N < fuel)%nat -> basis_ok d (basis_reset d b) [] ->
  exists st', build d tau fuel pv (mkMB All sup b) = Some (Ret st') /\ done st'.
Proof.
  intros Ne. destruct pivot_ok as (N & HN). exists N. intros fuel pv b sup Lf K. unfold build. cbn [mL mB].
  pose proof (reset_ok0 b K) as G. destruct pv.
  - assert (L1 : (1 <= length All)%nat) by (destruct All; [congruence|cbn; lia]).
    assert (E0 : forall st, mL st <> [] -> pivot_mb d tau fuel st = rbind (mtf_mb d tau (S (length (mL st))) 1 st) (fun st => pivot_loop d tau fuel 1 st)) by (intros st X; unfold pivot_mb; destruct (mL st); [congruence|reflexivity]).
    rewrite E0 by exact Ne. cbn [mL].
    destruct (mtf_ok eps d tau tau_pos All R2 Spread (S (length All)) 1 (mkMB All 0 (basis_reset d b)) []) as (st2 & E2 & P2 & S2 & K2 & H2 & G2); cbn [mL mB msup]; auto; try lia.
    { intros q []. } { intros q I; auto. } { apply feasible_any. apply incl_firstn. }
    rewrite E2. cbn [rbind]. cbn [mL] in *. apply HN; auto.
    assert (PL : Permutation All (mL st2)). { rewrite <- (firstn_skipn 1 All), <- (firstn_skipn 1 (mL st2)), S2. apply Permutation_app; auto. }
    split; auto. split; auto. split; [|split; auto]. rewrite <- (Permutation_length PL). lia.
  - destruct (mtf_ok eps d tau tau_pos All R2 Spread (S (length All)) (length All) (mkMB All 0 (basis_reset d b)) []) as (st2 & E2 & P2 & S2 & K2 & H2 & G2); cbn [mL mB msup]; auto.
    { intros q []. } { intros q I; auto. } { apply feasible_any. apply incl_firstn. }
    rewrite E2. exists st2. split; auto. cbn [mL] in *.
    assert (PL : Permutation All (mL st2)). { rewrite <- (firstn_skipn (length All) All), <- (firstn_skipn (length All) (mL st2)), S2. apply Permutation_app; auto. }
    rewrite (Permutation_length PL) in G2, H2. rewrite firstn_all in G2. apply good_done; auto. intros E. rewrite E in PL. apply Ne. apply Permutation_nil. apply Permutation_sym. auto.
Qed.
End Pivot.
