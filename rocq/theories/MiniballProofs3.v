(** The move-to-front recursion computes the smallest ball (Welzl's algorithm), in exact arithmetic. *)
From Coq Require Import Reals List Lra Lia Bool Permutation.
From Flocq Require Import Core.Raux.
From Verif Require Import Base Scalar RSpec RLib RotSpec MatLib VecProofs4 MiniballModel MiniballSpec MiniballProofs MiniballProofs2.
Import ListNotations.
Open Scope R_scope.

Section Dim.
Variable d : nat.
Lemma inner_zero_r x : inner d x (fun _ => 0) = 0.
Proof. unfold inner. apply Rsum_zero. intros. ring. Qed.
(** d mutually perpendicular vectors that are not zero: only zero is perpendicular to all of them *)
Lemma orthogonal_full (v : nat -> nat -> R) y : (forall i, (i < d)%nat -> 0 < norm2 d (v i)) -> (forall i j, (i < d)%nat -> (j < d)%nat -> i <> j -> inner d (v i) (v j) = 0) ->
  (forall i, (i < d)%nat -> inner d (v i) y = 0) -> forall i, (i < d)%nat -> y i = 0.
Proof.
  intros N O Y. set (A := fun i j => v i j / norm d (v i)).
  assert (Np : forall i, (i < d)%nat -> 0 < norm d (v i)) by (intros i Hi; apply sqrt_lt_R0; auto).
  assert (Or : orthogonal d A).
  { intros i j Hi Hj. unfold mmul, mtr, A. rewrite (Rsum_ext d _ (fun k => (/ norm d (v i) * / norm d (v j)) * (v i k * v j k))) by (intros; unfold Rdiv; ring).
    rewrite Rsum_scal_l. fold (inner d (v i) (v j)). destruct (Nat.eq_dec i j) as [->|Ne].
    - rewrite delta_same. fold (norm2 d (v j)). rewrite <- norm_sqr. specialize (Np j Hj). field. lra.
    - rewrite delta_diff, O by auto. ring. }
  intros i Hi. rewrite <- (mapply_delta d y i Hi). rewrite (mapply_ext d delta (mmul d (mtr A) A) y y i Hi) by (auto; apply meq_sym, orthogonal_cols; auto).
  rewrite mapply_mmul. unfold mapply at 1. apply Rsum_zero. intros k Hk. assert (mapply d A y k = 0).
  { unfold mapply, A. rewrite (Rsum_ext d _ (fun j => / norm d (v k) * (v k j * y j))) by (intros; unfold Rdiv; ring). rewrite Rsum_scal_l. fold (inner d (v k) y). rewrite Y by auto. ring. }
  rewrite H. ring.
Qed.
Lemma direction_inner l x y k : direction d l x -> (forall q, In q l -> inner d (pc q) y = k) -> inner d x y = 0.
Proof. intros (w & <- & W2 & W3) E. rewrite (inner_ext d x y (weighted w) y); auto. rewrite inner_weighted.
  assert (G : applied (fun x => inner d x y) w = k * total w); [|rewrite G, W2; ring]. clear W2 W3. induction w as [|a w IH]; [cbn; ring|].
  rewrite applied_cons, total_cons, IH, E; [ring|left; auto|]. intros q I. apply E. right. auto. Qed.
(** d + 1 points in general position: one ball only *)
Lemma full_unique b Bs c r c' r' : basis_ok d b Bs -> bm b = S d -> touches d c r Bs -> touches d c' r' Bs -> forall x, pw d c r x = pw d c' r' x.
Proof.
  intros [L Le Lz Lf Lv La Lc Lr Q Z O D Di Ck] M T T'. set (y := fun i => c' i - c i).
  assert (Ne : (0 < length Bs)%nat) by lia.
  assert (K : forall q, In q Bs -> inner d (pc q) y = - (norm2 d c - r - norm2 d c' + r') / 2).
  { intros q I. pose proof (pw_diff d c r c' r' (pc q)) as P. rewrite (T q I), (T' q I) in P. fold y in P. lra. }
  assert (Y : forall i, (i < d)%nat -> y i = 0).
  { apply (orthogonal_full (fun i => pc (row (bv b) (S i)))).
    - intros i Hi. apply Z. lia.
    - intros i j Hi Hj N. apply O; lia.
    - intros i Hi. eapply direction_inner; [apply Di; lia|]. intros q I. apply K. rewrite <- (firstn_skipn (S (S i)) Bs). apply in_app_iff. auto. }
  assert (I0 : forall x, inner d x y = 0) by (intros x; rewrite (inner_ext d x y x (fun _ => 0)) by auto; apply inner_zero_r).
  intros x. pose proof (pw_diff d c r c' r' x) as P. fold y in P. rewrite I0 in P.
  destruct Bs as [|q Bs]; [cbn in Ne; lia|]. specialize (K q (or_introl eq_refl)). rewrite I0 in K. lra.
Qed.
End Dim.

Section Mtf.
Context (eps : Epsilon).
Variable d : nat.
Variable tau : R.
Hypothesis tau_pos : 0 <= tau.
Variable All : list (list R).
Variable R2 : R.
Hypothesis Spread : forall b p, incl b All -> In p All -> in_affine d b (pc p) \/ forall x, in_affine d b x -> tau * R2 <= 2 * dist2 d (pc p) x.


(** The ball of the basis holds P, has S and Bs on its sphere and is the smallest such; or nothing is there yet. *)
Definition good (b : basis R) (S P Bs : list (list R)) : Prop :=
  bs b = (length S + length Bs)%nat /\
  ((holds d (cc b) (bcr b) P Bs /\ touches d (cc b) (bcr b) S /\ cert d (cc b) S Bs /\ bcr b <= R2) \/ (Bs = [] /\ P = [] /\ S = [] /\ bcr b < 0)).
Definition feasible (P Bs : list (list R)) : Prop := exists c r, holds d c r P Bs /\ r <= R2.

Lemma fresh_good b Bs P : fresh d b Bs -> feasible P Bs -> good b [] [] Bs.
Proof.
  intros (K & Es & A & T) (c & r & (Hp & Hb) & Hr). split; [exact Es|]. left. destruct A as (w & W1 & W2 & W3).
  assert (Ce : cert d (cc b) [] Bs) by (exists [], w; cbn; repeat split; auto; [lra|intros i Hi; rewrite W3 by auto; ring]).
  split; [split; [intros p []|auto]|]. split; [intros p []|]. split; auto.
  pose proof (cert_min d _ _ [] Bs c r Ce ltac:(intros p []) T) as M. pose proof (dist2_nonneg d (cc b) c). cut (bcr b + dist2 d (cc b) c <= r); [lra|]. apply M. split; [intros p []|auto].
Qed.

Lemma to_front_split {A} (l : list A) j p : nth_error l j = Some p -> to_front l j = p :: firstn j l ++ skipn (S j) l.
Proof. intros E. unfold to_front. now rewrite E. Qed.
Lemma nth_error_skipn0 {A} (l : list A) j : nth_error l j = nth_error (skipn j l) 0.
Proof. revert l. induction j; intros [|x l]; try reflexivity. apply IHj. Qed.
Lemma firstn_S_nth {A} (l : list A) j p : nth_error l j = Some p -> firstn (S j) l = firstn j l ++ [p].
Proof. revert l. induction j; intros [|x l] E; try discriminate; cbn in *. - injection E as ->. reflexivity. - f_equal. apply IHj; auto. Qed.
Lemma skipn_S_nth {A} (l : list A) j p : nth_error l j = Some p -> skipn j l = p :: skipn (S j) l.
Proof. revert l. induction j; intros [|x l] E; try discriminate; cbn in *. - injection E as ->. reflexivity. - apply IHj; auto. Qed.
Lemma skipn_split {A} (a b : list A) n k : length a = n -> skipn (n + k) (a ++ b) = skipn k b.
Proof. intros <-. induction a; cbn; auto. Qed.
Lemma holds_perm c r P P' Bs : Permutation P P' -> holds d c r P Bs -> holds d c r P' Bs.
Proof. intros E (Hp & Hb). split; auto. intros q I. apply Hp. eapply Permutation_in; [apply Permutation_sym; eauto|auto]. Qed.
Lemma incl_firstn {A} n (l : list A) : incl (firstn n l) l.
Proof. intros x I. rewrite <- (firstn_skipn n l). apply in_app_iff. auto. Qed.

(** Adding the point p that is not in the ball: what the recursive call is given, and what it gives back. *)
Lemma push_step b S P Bs p : basis_ok d b Bs -> good b S P Bs -> incl S P -> (bm b <> d + 1)%nat -> incl Bs All -> In p All -> 0 < pw d (cc b) (bcr b) (pc p) ->
  feasible (p :: P) Bs -> exists b', push d tau b p = Ret (true, b') /\ fresh d b' (Bs ++ [p]) /\ feasible P (Bs ++ [p]).
Proof.
  intros K (Es & G) IS M Ib Ip Out (cf & rf & F & Fr). destruct G as [(Hd & Ts & Ce & Rb)|(-> & -> & -> & Rn)].
  - destruct (between d (cc b) (bcr b) cf rf p P Bs) as (c2 & r2 & H2 & Hr2); auto; try apply (proj1 Hd); try exact (proj2 Hd).
    { pose proof (cert_min d (cc b) (bcr b) S Bs cf rf Ce Ts (proj2 Hd)) as C. pose proof (dist2_nonneg d (cc b) cf). cut (bcr b + dist2 d (cc b) cf <= rf); [lra|]. apply C. destruct F as (Fp & Fb). split; auto. intros q I. apply Fp. right. auto. }
    assert (Fe : feasible P (Bs ++ [p])) by (exists c2, r2; split; auto; lra).
    destruct Bs as [|q0 Bs'].
    + destruct (push_0 eps d tau b p K) as (b' & E & Fh). exists b'. auto.
    + set (Bs := q0 :: Bs') in *. assert (M1 : (1 <= bm b <= d)%nat). { pose proof (ok_len _ _ _ K). pose proof (ok_le _ _ _ K). cbn in H. lia. }
      destruct (new_v_spec eps d b Bs p K M1) as (Vo & Va & Vd).
      assert (Na : ~ in_affine d Bs (pc p)).
      { intros A. pose proof (same_power d Bs (pc p) (cc b) (bcr b) c2 r2 A (proj2 Hd)) as S0. rewrite (proj2 H2 p) in S0 by (apply in_app_iff; right; left; auto). rewrite S0 in Out; [lra|]. intros q I. apply (proj2 H2). apply in_app_iff. auto. }
      assert (Dv : dist2 d (pc p) (fun t => pc p t - pc (new_v eps d b p) t) = norm2 d (pc (new_v eps d b p))).
      { unfold dist2, norm2. apply inner_ext; intros; ring. }
      assert (Np : 0 < norm2 d (pc (new_v eps d b p))).
      { destruct (norm2_nonneg d (pc (new_v eps d b p))) as [|Z]; auto. exfalso. apply Na. eapply affine_ext; [|exact Va]. intros i Hi. cbn. rewrite (norm2_zero d _ (eq_sym Z) i Hi). ring. }
      destruct (push_spec eps d tau b Bs p K M1) as (b1 & b2 & E & _ & _ & _ & _ & Fh). exists b2. split; [|auto].
      rewrite E. rewrite Rlt_bool_false; auto. destruct (Spread Bs p Ib Ip) as [A|Sp]; [contradiction|]. specialize (Sp _ Va). rewrite Dv in Sp. nra.
  - destruct (push_0 eps d tau b p K) as (b' & E & Fh). exists b'. split; auto. split; auto. exists (pc p), 0. split; [split; [intros q []|]|].
    + intros q [<-|[]]. rewrite pw_center. ring.
    + pose proof (proj1 F p (or_introl eq_refl)) as X. unfold pw in X. pose proof (dist2_nonneg d (pc p) cf). lra.
Qed.

Lemma after_step b S P Bs p b' S' P' : good b S P Bs -> incl S P -> 0 < pw d (cc b) (bcr b) (pc p) -> Permutation P P' -> incl S' P' ->
  good b' S' P' (Bs ++ [p]) -> good (pop b') (p :: S') (p :: P') Bs.
Proof.
  intros (Es & G) IS Out Pm IS' (Es' & G'). destruct G' as [(Hd' & Ts' & Ce' & Rb')|(E & _)]; [|now apply app_eq_nil in E as [_ E]].
  split; [cbn [bs pop length]; rewrite Es', app_length; cbn; lia|]. left.
  change (cc (pop b')) with (cc b'). change (bcr (pop b')) with (bcr b').
  assert (Tp : pw d (cc b') (bcr b') (pc p) = 0) by (apply (proj2 Hd'); apply in_app_iff; right; left; auto).
  split; [split|split; [|split; auto]].
  - intros q [<-|I]; [lra|]. apply (proj1 Hd'); auto.
  - intros q I. apply (proj2 Hd'). apply in_app_iff. auto.
  - intros q [<-|I]; auto.
  - destruct G as [(Hd & Ts & Ce & Rb)|(-> & -> & -> & Rn)].
    + apply new_weight with (c := cc b) (r := bcr b) (r2 := bcr b'); auto.
      * apply (cert_min d _ _ S Bs); auto; [exact (proj2 Hd)|]. split; [|intros q I; apply (proj2 Hd'); apply in_app_iff; auto]. intros q I. apply (proj1 Hd'). eapply Permutation_in; [exact Pm|auto].
      * intros q I. apply (proj1 Hd). eapply Permutation_in; [apply Permutation_sym; exact Pm|auto].
      * exact (proj2 Hd).
      * exact (proj2 Hd').
    + apply Permutation_nil in Pm as ->. destruct S' as [|x S']; [|destruct (IS' x); left; auto].
      destruct Ce' as (u & w & Eu & Ew & Pu & T & E). destruct u; [|discriminate]. exists w, []. cbn in Ew, T. split; auto. split; auto.
      destruct w as [|[nu q] [|? ?]]; try discriminate. cbn in T. split; [constructor; [cbn; lra|constructor]|]. split; [cbn; lra|]. intros i Hi. rewrite (E i Hi). cbn. ring.
Qed.

Lemma mtf_ok : forall fuel n st Bs, (n < fuel)%nat -> (n <= length (mL st))%nat -> basis_ok d (mB st) Bs -> good (mB st) [] [] Bs -> incl Bs All -> incl (mL st) All ->
  feasible (firstn n (mL st)) Bs ->
  exists st', mtf_mb d tau fuel n st = Some (Ret st') /\ Permutation (firstn n (mL st)) (firstn n (mL st')) /\ skipn n (mL st') = skipn n (mL st) /\
    basis_ok d (mB st') Bs /\ (msup st' <= n)%nat /\ good (mB st') (firstn (msup st') (mL st')) (firstn n (mL st')) Bs.
Proof.
  induction fuel as [|fuel IHf]; intros n st Bs Hn Ln K G Ib Il Fe; [lia|]. cbn [mtf_mb mB mL].
  destruct (Nat.eqb_spec (bm (mB st)) (d + 1)) as [M|M].
  - eexists. split; [reflexivity|]. cbn [mL msup mB firstn]. split; [apply Permutation_refl|]. split; [reflexivity|]. split; auto. split; [lia|].
    destruct G as (Es & G). split; auto. destruct G as [(Hd & Ts & Ce & Rb)|(-> & _)].
    + left. split; [|auto]. split; [|apply Hd]. destruct Fe as (c & r & (Fp & Fb) & _). intros q I. rewrite (full_unique d (mB st) Bs (cc (mB st)) (bcr (mB st)) c r K ltac:(lia) (proj2 Hd) Fb). auto.
    + pose proof (ok_len _ _ _ K). cbn in H. lia.
  - (* the loop *)
    assert (Loop : forall left idx st1, (idx + left = n)%nat -> Permutation (firstn n (mL st)) (firstn n (mL st1)) -> skipn n (mL st1) = skipn n (mL st) ->
      basis_ok d (mB st1) Bs -> (msup st1 <= idx)%nat -> good (mB st1) (firstn (msup st1) (mL st1)) (firstn idx (mL st1)) Bs ->
      exists st', mtf_loop d tau (mtf_mb d tau fuel) idx left st1 = Some (Ret st') /\ Permutation (firstn n (mL st)) (firstn n (mL st')) /\ skipn n (mL st') = skipn n (mL st) /\
        basis_ok d (mB st') Bs /\ (msup st' <= n)%nat /\ good (mB st') (firstn (msup st') (mL st')) (firstn n (mL st')) Bs).
    { induction left as [|left IHl]; intros idx st1 Ei Pm Sk K1 Hs G1.
      - cbn [mtf_loop]. exists st1. replace n with idx in * by lia. auto 10.
      - cbn [mtf_loop].
        assert (L1 : length (mL st1) = length (mL st)).
        { rewrite <- (firstn_skipn n (mL st1)), <- (firstn_skipn n (mL st)), !app_length, Sk. f_equal. symmetry. apply Permutation_length; auto. }
        destruct (nth_error (mL st1) idx) as [p|] eqn:Ep; [|apply nth_error_None in Ep; lia].
        assert (PmAll : Permutation (mL st) (mL st1)).
        { rewrite <- (firstn_skipn n (mL st1)), <- (firstn_skipn n (mL st)), Sk. apply Permutation_app; auto. }
        assert (Il1 : incl (mL st1) All) by (intros q I; apply Il; eapply Permutation_in; [apply Permutation_sym; exact PmAll|auto]).
        assert (Ip : In p All) by (apply Il1; apply nth_error_In in Ep; auto).
        assert (Fn : firstn (S idx) (mL st1) = firstn idx (mL st1) ++ [p]) by (apply firstn_S_nth; auto).
        assert (Sub : incl (firstn (S idx) (mL st1)) (firstn n (mL st1))).
        { intros q I. replace n with (S idx + left)%nat by lia. rewrite <- (firstn_skipn (S idx) (firstn (S idx + left) (mL st1))), firstn_firstn. apply in_app_iff. left. replace (Nat.min (S idx) (S idx + left)) with (S idx) by lia. auto. }
        assert (Fe1 : feasible (p :: firstn idx (mL st1)) Bs).
        { destruct Fe as (c & r & (Fp & Fb) & Fr). exists c, r. split; auto. split; auto. intros q I. apply Fp. eapply Permutation_in; [apply Permutation_sym; exact Pm|]. apply Sub. rewrite Fn. apply in_app_iff. destruct I as [<-|I]; [right; left; auto|auto]. }
        assert (IS : incl (firstn (msup st1) (mL st1)) (firstn idx (mL st1))).
        { intros q I. replace (msup st1) with (Nat.min (msup st1) idx) in I by lia. rewrite <- firstn_firstn in I. eapply incl_firstn; eauto. }
        cbn [nltb Rnum]. rewrite excess_pw. change (@n0 R (Rnum eps)) with 0. destruct (Rlt_bool_spec 0 (pw d (cc (mB st1)) (bcr (mB st1)) (pc p))) as [Out|In0].
        + destruct (push_step (mB st1) _ _ Bs p K1 G1 IS) as (b' & Epush & Fh & Fe2); auto.
          { pose proof (ok_len _ _ _ K1). pose proof (ok_len _ _ _ K). lia. }
          rewrite Epush. cbn [rbind fst snd].
          destruct (IHf idx (mkMB (mL st1) (msup st1) b') (Bs ++ [p])) as (st2 & E2 & P2 & S2 & K2 & H2 & G2); cbn [mL mB msup]; try lia; auto.
          { apply Fh. } { eapply fresh_good; eauto. }
          { intros q I. apply in_app_iff in I as [I|[<-|[]]]; auto. }
          cbn [mL mB msup] in *. rewrite E2. cbn [rbind].
          assert (Ep2 : nth_error (mL st2) idx = Some p) by (rewrite nth_error_skipn0, S2, <- nth_error_skipn0; auto).
          assert (L2 : length (firstn idx (mL st2)) = idx).
          { rewrite <- (Permutation_length P2), firstn_length. lia. }
          set (st3 := move_to_front idx (mkMB (mL st2) (msup st2) (pop (mB st2)))).
          assert (E3 : mL st3 = p :: firstn idx (mL st2) ++ skipn (S idx) (mL st2)) by (unfold st3, move_to_front; cbn [mL]; apply to_front_split; auto).
          assert (Ms : msup st3 = S (msup st2)).
          { unfold st3, move_to_front. cbn [msup]. unfold shift_pos. destruct (Nat.eqb_spec (msup st2) idx) as [->|Ne].
            - destruct (Nat.ltb_spec (S idx) idx); [lia|]. destruct (Nat.eqb_spec (S idx) idx); lia.
            - destruct (Nat.ltb_spec (msup st2) idx); lia. }
          assert (Sk3 : skipn (S idx) (mL st2) = skipn (S idx) (mL st1)).
          { pose proof S2 as Q. rewrite (skipn_S_nth _ _ _ Ep2), (skipn_S_nth _ _ _ Ep) in Q. injection Q as Q. exact Q. }
          apply IHl; try lia.
          * etransitivity; [exact Pm|]. rewrite E3, Sk3. replace n with (S idx + left)%nat by lia. rewrite <- (firstn_skipn idx (mL st1)) at 1. rewrite (skipn_S_nth _ _ _ Ep).
            rewrite firstn_app. rewrite firstn_length. replace (S idx + left - Nat.min idx (length (mL st1)))%nat with (S left) by lia. rewrite (firstn_all2 (n := S idx + left)) by (rewrite firstn_length; lia). cbn [firstn plus].
            rewrite firstn_app, L2. replace (idx + left - idx)%nat with left by lia. rewrite (firstn_all2 (n := idx + left)) by lia.
            etransitivity; [apply Permutation_sym, Permutation_middle|]. constructor. apply Permutation_app_tail. exact P2.
          * rewrite <- Sk, E3, Sk3. replace n with (S idx + left)%nat by lia. rewrite <- (firstn_skipn idx (mL st1)) at 2. rewrite (skipn_S_nth _ _ _ Ep).
            change (skipn (S idx + left) (p :: firstn idx (mL st2) ++ skipn (S idx) (mL st1))) with (skipn (idx + left) (firstn idx (mL st2) ++ skipn (S idx) (mL st1))).
            rewrite skipn_split by auto. replace (S idx + left)%nat with (idx + S left)%nat by lia. rewrite skipn_split by (rewrite firstn_length; lia). reflexivity.
          * unfold st3, move_to_front. cbn [mB]. apply pop_ok with (p := p); auto.
          * change (mB st3) with (pop (mB st2)). rewrite Ms, E3. cbn [firstn]. rewrite !firstn_app_le by lia. rewrite (firstn_firstn _ idx idx), Nat.min_id.
            assert (T1 : firstn (msup st2) (firstn idx (mL st2)) = firstn (msup st2) (mL st2)) by (rewrite firstn_firstn; f_equal; lia).
            rewrite T1. apply after_step with (b := mB st1) (S := firstn (msup st1) (mL st1)) (P := firstn idx (mL st1)); auto.
            intros q I. rewrite <- T1 in I. eapply incl_firstn; eauto.
        + apply IHl; try lia; auto. rewrite Fn. destruct G1 as (Es & [(Hd & Ts & Ce & Rb)|(E1 & E2 & E3 & Rn)]).
          * split; auto. left. split; auto. split; [|apply Hd]. intros q I. apply in_app_iff in I as [I|[<-|[]]]; auto. apply (proj1 Hd); auto.
          * exfalso. unfold pw in In0. pose proof (dist2_nonneg d (pc p) (cc (mB st1))). lra. }
    apply Loop; cbn [mL mB msup]; auto; try lia.
Qed.
End Mtf.
