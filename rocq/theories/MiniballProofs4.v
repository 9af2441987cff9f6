(** What holds of the search for any arithmetic: it ends, keeps the points, and never uses more than d + 1 of them. *)
From Coq Require Import Arith List Lia Bool Permutation.
From Verif Require Import Base Scalar ConstModel VecModel ShapeModel MiniballModel MiniballProofs3.
Import ListNotations.

Lemma to_front_perm {A} (l : list A) j : Permutation l (to_front l j).
Proof.
  unfold to_front. destruct (nth_error l j) as [x|] eqn:E; [|apply Permutation_refl].
  rewrite <- (firstn_skipn j l) at 1. rewrite (skipn_S_nth _ _ _ E). apply Permutation_sym, Permutation_middle.
Qed.

Section Any.
Context {T} `{Num T}.
Variable d : nat.
Variable tau : T.
Definition small (st : mbstate T) : Prop := (bm (mB st) <= S d /\ bs (mB st) <= S d)%nat.

Lemma push_any (b : basis T) p : (bm b <= d)%nat -> (bs b <= S d)%nat ->
  exists r, push d tau b p = Ret r /\ (bs (snd r) <= S d)%nat /\ bm (snd r) = (if fst r then S (bm b) else bm b).
Proof.
  intros M B. unfold push. destruct (Nat.ltb_spec d (bm b)); [lia|]. destruct (Nat.eqb_spec (bm b) 0) as [E|E].
  - eexists. split; [reflexivity|]. cbn. lia.
  - match goal with |- context [if ?c then Ret (false, _) else _] => destruct c end; eexists; (split; [reflexivity|]); cbn; lia.
Qed.

Lemma shift_any j (st : mbstate T) n : (msup st <= n)%nat -> (j < n)%nat \/ (msup st <= j)%nat -> (msup (move_to_front j st) <= S (Nat.max n j))%nat.
Proof. intros. unfold move_to_front, shift_pos. cbn [msup]. destruct (Nat.eqb_spec (msup st) j); destruct (Nat.ltb_spec (S (msup st)) j), (Nat.ltb_spec (msup st) j); try destruct (Nat.eqb_spec (S (msup st)) j); try destruct (Nat.eqb_spec (msup st) j); lia. Qed.
Lemma mtf_any : forall fuel n st, (n < fuel)%nat -> (n <= length (mL st))%nat -> small st ->
  exists st', mtf_mb d tau fuel n st = Some (Ret st') /\ Permutation (mL st) (mL st') /\ small st' /\ bm (mB st') = bm (mB st) /\ (msup st' <= n)%nat.
Proof.
  induction fuel as [|fuel IHf]; intros n st Hn Ln Sm; [lia|]. cbn [mtf_mb mB mL].
  destruct (Nat.eqb_spec (bm (mB st)) (d + 1)) as [M|M]; [eexists; split; [reflexivity|]; cbn [mL mB msup]; split; [apply Permutation_refl|split; [auto|split; [auto|lia]]]|].
  assert (Loop : forall left idx st1, (idx + left = n)%nat -> Permutation (mL st) (mL st1) -> small st1 -> bm (mB st1) = bm (mB st) -> (msup st1 <= idx)%nat ->
    exists st', mtf_loop d tau (mtf_mb d tau fuel) idx left st1 = Some (Ret st') /\ Permutation (mL st) (mL st') /\ small st' /\ bm (mB st') = bm (mB st) /\ (msup st' <= n)%nat).
  { induction left as [|left IHl]; intros idx st1 Ei Pm S1 B1 Hs; cbn [mtf_loop]; [exists st1; replace n with idx by lia; auto|].
    destruct (nth_error (mL st1) idx) as [p|] eqn:Ep; [|apply nth_error_None in Ep; rewrite <- (Permutation_length Pm) in Ep; lia].
    destruct (nltb n0 (excess d (mB st1) p)); [|apply IHl; auto; lia].
    destruct (push_any (mB st1) p) as ((ok & b') & E & Bs & Bm); [unfold small in *; lia|apply S1|]. rewrite E. cbn [rbind fst snd] in *. destruct ok.
    - destruct (IHf idx (mkMB (mL st1) (msup st1) b')) as (st2 & E2 & P2 & S2 & B2 & H2); cbn [mL mB msup]; try lia.
      { rewrite <- (Permutation_length Pm). lia. } { unfold small in *. cbn [mB]. lia. }
      cbn [mL mB msup] in *. rewrite E2. cbn [rbind]. apply IHl; try lia.
      + unfold move_to_front. cbn [mL]. etransitivity; [exact Pm|]. etransitivity; [exact P2|apply to_front_perm].
      + unfold small, move_to_front in *. cbn [mB bm bs pop]. lia.
      + unfold move_to_front. cbn [mB bm pop]. lia.
      + pose proof (shift_any idx (mkMB (mL st2) (msup st2) (pop (mB st2))) idx). cbn [msup] in *. lia.
    - apply IHl; cbn [mL mB]; auto; try lia. unfold small in *. cbn [mB]. lia. }
  apply Loop; auto; cbn [msup]; lia.
Qed.

Lemma max_excess_any st t : (fst (max_excess d st t) = n0 /\ snd (max_excess d st t) = None) \/
  (exists k p, snd (max_excess d st t) = Some k /\ nth_error (mL st) k = Some p /\ (t <= k)%nat).
Proof.
  unfold max_excess. set (f := fun (acc : T * option nat) (kp : nat * list T) => _).
  assert (G : forall l acc, (forall k p, In (k, p) l -> nth_error (mL st) k = Some p /\ (t <= k)%nat) ->
    (fst acc = n0 /\ snd acc = None) \/ (exists k p, snd acc = Some k /\ nth_error (mL st) k = Some p /\ (t <= k)%nat) ->
    (fst (fold_left f l acc) = n0 /\ snd (fold_left f l acc) = None) \/ (exists k p, snd (fold_left f l acc) = Some k /\ nth_error (mL st) k = Some p /\ (t <= k)%nat)).
  { induction l as [|[k p] l IH]; intros acc Hl Ha; [exact Ha|]. cbn [fold_left]. apply IH; [intros; apply Hl; right; auto|].
    unfold f. cbn [fst snd]. destruct (nltb _ _); auto. right. exists k, p. destruct (Hl k p (or_introl eq_refl)). auto. }
  apply G; [|left; auto]. intros k p I. apply In_nth_error in I as (i & I).
  assert (L : forall (a : list nat) (b : list (list T)) i, nth_error (combine a b) i = Some (k, p) -> nth_error a i = Some k /\ nth_error b i = Some p).
  { induction a as [|x a IH]; intros [|y b] [|j] E; try discriminate; cbn in *; [injection E as -> ->; auto|apply IH; auto]. }
  apply L in I as (I1 & I2).
  assert (k = t + i)%nat. { apply nth_error_nth with (d := 0%nat) in I1 as E. assert (i < length (seq t (length (mL st) - t)))%nat by (apply nth_error_Some; congruence). rewrite seq_length in H0. rewrite seq_nth in E by auto. lia. }
  subst k. split; [|lia]. rewrite <- I2. rewrite <- (firstn_skipn t (mL st)) at 1. assert (Lt : (t <= length (mL st))%nat). { destruct (Nat.le_gt_cases t (length (mL st))); auto. rewrite skipn_all2 in I2 by lia. destruct i; discriminate. }
  rewrite nth_error_app2; rewrite firstn_length; [f_equal|]; lia.
Qed.

Lemma pivot_any : nleb n0 n0 = true -> forall fuel t st, small st -> bm (mB st) = 0%nat -> (msup st <= length (mL st))%nat ->
  pivot_loop d tau fuel t st = None \/ exists st', pivot_loop d tau fuel t st = Some (Ret st') /\ Permutation (mL st) (mL st') /\ small st' /\ bm (mB st') = 0%nat.
Proof.
  intros Z. induction fuel as [|fuel IH]; intros t st Sm B0 Ls; [left; reflexivity|]. cbn [pivot_loop].
  pose proof (max_excess_any st t) as M. destruct (max_excess d st t) as (e & pv). cbn [fst snd] in M.
  destruct (nleb e n0) eqn:Le. { right. exists st. auto. }
  destruct M as [(-> & ->)|(k & p & -> & Ep & Hk)]; [congruence|]. rewrite Ep.
  destruct (push_any (mB st) p) as ((ok & b') & E & Bs & Bm); [lia|apply Sm|]. rewrite E. cbn [rbind fst snd] in *.
  assert (Ok : ok = true). { unfold push in E. rewrite B0 in E. cbn in E. congruence. } subst ok.
  destruct (mtf_any (S (length (mL st))) (msup st) (mkMB (mL st) (msup st) b')) as (st2 & E2 & P2 & S2 & B2 & H2); cbn [mL mB]; try lia.
  { unfold small in *. cbn [mB]. lia. }
  cbn [mL mB msup] in *. rewrite E2. cbn [rbind].
  set (st3 := move_to_front k (mkMB (mL st2) (msup st2) (pop (mB st2)))).
  assert (P3 : Permutation (mL st) (mL st3)) by (etransitivity; [exact P2|apply to_front_perm]).
  assert (Sm3 : small st3) by (unfold small, st3, move_to_front in *; cbn [mB bm bs pop]; lia).
  assert (B3 : bm (mB st3) = 0%nat) by (unfold st3, move_to_front; cbn [mB bm pop]; lia).
  destruct (nltb _ _); [|right; exists st3; auto].
  destruct (IH (shift_pos k (if Nat.eqb (msup st) k then S (msup st) else msup st)) st3) as [N|(st4 & E4 & P4 & R4)]; auto.
  { rewrite <- (Permutation_length P3). assert (k < length (mL st))%nat by (apply nth_error_Some; congruence). unfold st3, move_to_front, shift_pos. cbn [msup].
    destruct (Nat.eqb_spec (msup st2) k); destruct (Nat.ltb_spec (S (msup st2)) k), (Nat.ltb_spec (msup st2) k); try destruct (Nat.eqb_spec (S (msup st2)) k); try destruct (Nat.eqb_spec (msup st2) k); lia. }
  right. exists st4. split; auto. split; auto. etransitivity; eauto.
Qed.

Lemma build_any : nleb n0 n0 = true -> forall fuel pv st, mL st <> [] ->
  (pv = true /\ build d tau fuel pv st = None) \/ exists st', build d tau fuel pv st = Some (Ret st') /\ Permutation (mL st) (mL st') /\ (bs (mB st') <= S d)%nat.
Proof.
  intros Z fuel pv st Ne. unfold build. cbn [mL].
  assert (S0 : small (mkMB (mL st) 0 (basis_reset d (mB st)))) by (unfold small; cbn; lia).
  destruct pv.
  - unfold pivot_mb. cbn [mL]. destruct (mL st) as [|p l] eqn:El; [congruence|].
    destruct (mtf_any (S (length (p :: l))) 1 (mkMB (p :: l) 0 (basis_reset d (mB st)))) as (st2 & E2 & P2 & S2 & B2 & H2); auto; try (cbn; lia). rewrite E2. cbn [rbind].
    destruct (pivot_any Z fuel 1 st2) as [N|(st4 & E4 & P4 & R4 & _)]; auto.
    + cbn [mL] in P2. rewrite <- (Permutation_length P2). cbn. lia.
    + right. exists st4. split; auto. split; [etransitivity; eauto|apply R4].
  - right. destruct (mtf_any (S (length (mL st))) (length (mL st)) (mkMB (mL st) 0 (basis_reset d (mB st)))) as (st2 & E2 & P2 & S2 & B2 & H2); auto; try (cbn; lia). exists st2. split; auto. split; auto. apply S2.
Qed.
End Any.
