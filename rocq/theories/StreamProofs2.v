(** Lemmas for the text of polygons in space, matrices and quaternions. *)
From Coq Require Import ZArith NArith Bool Ascii String List Lia Reals Lra.
From Flocq Require Import Core.Zaux Core.Raux.
From Verif Require Import Base Scalar ConstModel VecModel RotModel QuatModel ShapeModel PolyModel RSpec VecSpec RotSpec ShapeSpec MotionSpec PolySpec RLib MatLib VecProofs VecProofs2 VecProofs3 RotProofs RotProofs4 ShapeProofs BallProofs SphereProofs MotionProofs MotionProofs2 PolyProofs StreamModel StreamSpec StreamProofs.
Import ListNotations.
Local Open Scope char_scope.
Local Open Scope list_scope.

(** ** The separators of Polygon<dim> and Line *)
Section Text.
Context {T} `{Num T}.
Variable print : T -> text.
Variable scan : text -> option (T * text).
Variable ok : T -> Prop.
Hypothesis exact : prints_exactly print scan ok.
Variable dim : nat.

Lemma corners_text_end : forall l i, (i + length l = dim)%nat -> l <> [] -> write_corners_d print dim i l = write_corners print l.
Proof.
  induction l as [|p l IH]; intros i L N; [congruence|]. cbn [length] in L. cbn [write_corners_d]. destruct l as [|q l].
  - cbn [write_corners_d]. destruct (Nat.ltb_spec i (dim - 1)); [cbn in L; lia|]. reflexivity.
  - destruct (Nat.ltb_spec i (dim - 1)); [|cbn [length] in L; lia]. rewrite IH by (try discriminate; cbn [length] in *; lia). reflexivity.
Qed.
Lemma read_short : forall l i next fuel, (i + length l < dim)%nat -> Forall (ok_point ok dim) l -> (length l < fuel)%nat ->
  read_corners scan n0 fuel dim next (Some (write_corners_d print dim i l)) = Uninit.
Proof.
  induction l as [|p l IH]; intros i next fuel L O F; (destruct fuel as [|fuel]; [cbn in F; lia|]); cbn [length] in *.
  - cbn [write_corners_d read_corners]. reflexivity.
  - apply Forall_cons_iff in O as [Op Ol]. cbn [write_corners_d read_corners]. rewrite (read_point_0 T print scan n0 ok exact) by auto. cbn [iobind].
    destruct (Nat.ltb_spec i (dim - 1)); [|lia]. rewrite get_char_hd by reflexivity. change (Ascii.eqb "," ")") with false. cbn iota. rewrite Ascii.eqb_refl.
    rewrite IH by (auto; lia). reflexivity.
Qed.
Lemma read_long : forall l i next fuel rest, (i < dim)%nat -> (dim <= i + length l)%nat -> Forall (ok_point ok dim) l -> (length l < fuel)%nat ->
  exists s, read_corners scan n0 fuel dim next (Some (write_corners_d print dim i l ++ rest)) = Got (firstn (dim - i) l) s.
Proof.
  induction l as [|p l IH]; intros i next fuel rest I L O F; (destruct fuel as [|fuel]; [cbn in F; lia|]); cbn [length] in *; [lia|].
  apply Forall_cons_iff in O as [Op Ol]. cbn [write_corners_d read_corners]. rewrite <- app_assoc. cbn [app]. rewrite (read_point_0 T print scan n0 ok exact) by auto. cbn [iobind].
  destruct (Nat.ltb_spec i (dim - 1)).
  - rewrite get_char_hd by reflexivity. change (Ascii.eqb "," ")") with false. cbn iota. rewrite Ascii.eqb_refl.
    destruct (IH (S i) "," fuel rest) as (s & E); [lia|lia|auto|lia|]. rewrite E. cbn [iobind]. exists s. replace (dim - i)%nat with (S (dim - S i)) by lia. reflexivity.
  - rewrite get_char_hd by reflexivity. rewrite Ascii.eqb_refl. replace (dim - i)%nat with 1%nat by lia. cbn. eauto.
Qed.
Lemma sep_eq p q (l l' : list ascii) : length (p ++ l) = length (q ++ l') -> p = q -> length l = length l'.
Proof. intros E ->. rewrite !app_length in E. lia. Qed.
Lemma corners_text_ne : forall l i, l <> [] -> (i < dim)%nat -> (i + length l <> dim)%nat -> write_corners_d print dim i l <> write_corners print l.
Proof.
  induction l as [|p l IH]; intros i N I L; [congruence|]. cbn [length] in L. cbn [write_corners_d]. destruct l as [|q l].
  - cbn [write_corners_d write_corners]. destruct (Nat.ltb_spec i (dim - 1)); [|cbn [length] in L; lia]. intros E. apply app_inv_head in E. discriminate.
  - change (write_corners print (p :: q :: l)) with (write_point print p ++ "," :: write_corners print (q :: l)). intros E. apply app_inv_head in E. injection E as E1 E2.
    destruct (Nat.ltb_spec i (dim - 1)); [|discriminate]. revert E2. apply IH; [discriminate|lia|cbn [length] in *; lia].
Qed.
Lemma corners_of_inv p : forall is l, corners_of dim p is = Ret l -> length l = length is /\ forall k c, nth_error l k = Some c -> exists i, nth_error is k = Some i /\ pg_corner dim p i = Ret c.
Proof.
  induction is as [|i is IH]; intros l E; cbn [corners_of] in E.
  - injection E as <-. split; auto. intros [|k] c; discriminate.
  - destruct (pg_corner dim p i) as [c| | |] eqn:C; cbn [obind] in E; try discriminate. destruct (corners_of dim p is) as [l'| | |]; cbn [obind] in E; try discriminate. injection E as <-.
    destruct (IH l' eq_refl) as [L K]. split; [cbn; auto|]. intros [|k] c' Q; [injection Q as <-; exists i; auto|]. apply K. exact Q.
Qed.
Lemma write_pg_inv p t : write_pg print dim p = Ret t -> pcorners p <> [] ->
  exists l, length l = pg_num p /\ (forall k c, nth_error l k = Some c -> pg_corner dim p k = Ret c) /\ t = txt "Polygon: (" ++ write_corners_d print dim 0 l.
Proof.
  unfold write_pg. intros E N. destruct (pcorners p) as [|c cs] eqn:P; [congruence|]. destruct (corners_of dim p (seq 0 (pg_num p))) as [l| | |] eqn:C; cbn [obind] in E; try discriminate.
  injection E as <-. exists l. apply corners_of_inv in C as [L K]. rewrite seq_length in L. split; auto. split; auto. intros k c' Q. destruct (K k c' Q) as (i & I & X).
  assert (k < length l)%nat by (apply nth_error_Some; congruence). assert (nth_error (seq 0 (pg_num p)) k = Some k). { rewrite (nth_error_nth' _ 0%nat) by (rewrite seq_length; lia). now rewrite seq_nth by lia. } congruence.
Qed.
Lemma start_polygon t : read_start_s (Some (txt "Polygon: (" ++ t)) = Got false (Some t).
Proof. reflexivity. Qed.
Lemma build_num l e s p s' : build_pg dim l e s = Got p s' -> pg_num p = length l.
Proof.
  unfold build_pg. destruct (read_order dim l) as [order|]; [|discriminate]. destruct (expand_all _ _ _ _ _ _) as [[o l2] s2| | | | |]; cbn [iobind]; try discriminate.
  intros E. injection E as <- <-. unfold pg_num. cbn [pcorners]. now rewrite map_length, seq_length.
Qed.
End Text.

(** ** Building the polygon *)
#[local] Hint Extern 0 (Num R) => exact (Rnum 0) : typeclass_instances.
Section Build.
Variable n : nat.
Notation Z := (Rnum 0).
Variable e : R.
Hypothesis He : (0 <= e)%R.
Open Scope R_scope.

Definition level (o : porient R) : nat := ((if valid (porigin o) then 1 else 0) + (if valid (pax0 o) then 1 else 0) + (if valid (pax1 o) then 1 else 0))%nat.
Lemma level_3 o : (level o <= 3)%nat.
Proof. unfold level. destruct (valid (porigin o)), (valid (pax0 o)), (valid (pax1 o)); cbn; lia. Qed.
Lemma expand_level o x o' p2 : frame_ok n o -> @orient_expand R Z n o x e = Some (o', p2) ->
  (level o' <= S (level o))%nat /\ (valid (porigin o) = true -> porigin o' = porigin o) /\ (valid (porigin o) = false -> co (porigin o') = co x).
Proof.
  intros (F1 & F2 & _) E. unfold orient_expand in E. unfold level. destruct (valid (porigin o)) eqn:Vo; cbn [negb] in E.
  - destruct (nleb _ _); [injection E as <- _; rewrite Vo; split; [lia|split; [auto|discriminate]]|].
    destruct (valid (pax0 o)) eqn:V0; cbn [negb] in E.
    + destruct (nleb _ _); [injection E as <- _; rewrite Vo, V0; split; [lia|split; [auto|discriminate]]|].
      destruct (valid (pax1 o)) eqn:V1; cbn [negb] in E.
      * destruct (nleb _ _); [|discriminate]. injection E as <- _; rewrite Vo, V0, V1; split; [lia|split; [auto|discriminate]].
      * injection E as <- _. cbn [porigin pax0 pax1]. rewrite Vo, V0, set_valid_valid. split; [lia|split; [auto|discriminate]].
    + injection E as <- _. cbn [porigin pax0 pax1]. rewrite Vo, set_valid_valid. split; [lia|split; [auto|discriminate]].
  - injection E as <- _. cbn [porigin pax0 pax1]. rewrite set_valid_valid. split; [lia|split; [discriminate|auto]].
Qed.

Definition placed (o : porient R) (x c : coords R) : Prop :=
  flat_ok o c /\ valid c = true /\ dist2 n (plane_at o (co c)) (co x) <= e * dist2 n (co x) (co (porigin o)).
Lemma expand_all_spec : forall pts o must s, frame_ok n o -> (level o + must <= 3)%nat -> 
  match @expand_all R Z n o must pts e s with
  | Got (o', l2) s' => s' = s /\ frame_ok n o' /\ Forall2 (placed o') pts l2 /\ (valid (porigin o) = true -> porigin o' = porigin o) /\
      (forall c, flat_ok o c -> flat_ok o' c /\ pteq n (plane_at o' (co c)) (plane_at o (co c))) /\
      (valid (porigin o) = false -> forall x r, pts = x :: r -> co (porigin o') = co x)
  | ParseError => (must < length pts)%nat
  | _ => False
  end.
Proof.
  induction pts as [|x pts IH]; intros o must s F L; cbn [expand_all].
  - split; auto. split; auto. split; [constructor|]. split; auto. split; [intros c C; split; auto using pteq_refl|]. discriminate.
  - pose proof (expand_spec 0 n o x e F He) as S. assert (Ex : expand_exact 0 n o x) by (unfold expand_exact, exact_dot; rewrite !dot_inner; tauto). specialize (S Ex).
    destruct (orient_expand n o x e) as [[o1 p2]|] eqn:E.
    + destruct S as (F1 & V1 & Fl & Vp & D & K). destruct (expand_level o x o1 p2 F E) as (Lv & Same & New).
      assert (L1 : (level o1 + (must - 1) <= 3)%nat). { pose proof (level_3 o). pose proof (level_3 o1). lia. }
      specialize (IH o1 (must - 1)%nat s F1 L1). destruct (expand_all n o1 (must - 1) pts e s) as [[o' l2] s'| | | | |]; cbn [iobind fst snd]; auto.
      * destruct IH as (-> & F' & P & Or & Kc & _). split; auto. split; auto. specialize (Or V1).
        assert (Dx : dist2 n (plane_at o1 (co p2)) (co x) <= e * dist2 n (co x) (co (porigin o'))).
        { rewrite Or. unfold room in D. destruct (valid (porigin o)) eqn:Vo; [rewrite Same by auto; exact D|]. pose proof (dist2_nonneg n (co x) (co (porigin o1))). assert (0 <= e * dist2 n (co x) (co (porigin o1))) by now apply Rmult_le_pos. lra. }
        split; [|split; [intros Q; rewrite Or; auto|split]].
        -- constructor; auto. destruct (Kc p2 Fl) as [Fl' Pe]. split; auto. split; auto. rewrite (dist2_ext n _ _ (plane_at o1 (co p2)) (co x)); auto using pteq_refl.
        -- intros c C. destruct (K c C) as [C1 Q1]. destruct (Kc c C1) as [C2 Q2]. split; auto. intros i Hi. rewrite Q2, Q1; auto.
        -- intros Vo y r Q. injection Q as <- <-. rewrite Or. auto.
      * cbn [length]. lia.
    + destruct S as [V1 _]. assert (level o = 3)%nat by (destruct F as (A & B & _); unfold level; rewrite V1, (A V1), (B (A V1)); reflexivity). destruct must; [cbn; lia|lia].
Qed.

Lemma sloppy_nonneg (p q : coords R) : 0 <= @sloppy_dist R Z n p q.
Proof.
  unfold sloppy_dist. assert (M : forall k v, 0 <= @mag R Z k v) by (intros k v; rewrite (mag_norm 0); apply sqrt_pos).
  destruct n as [|[|[|m]]].
  - apply Rle_trans with (2 := proj1 (sloppy3_bracket 0 (@vec_sub R Z 3 p q))). apply M.
  - rewrite (sloppy1_exact 0). apply M.
  - apply Rle_trans with (2 := proj1 (sloppy2_bracket 0 (@vec_sub R Z 2 p q))). apply M.
  - apply Rle_trans with (2 := proj1 (sloppy3_bracket 0 (@vec_sub R Z 3 p q))). apply M.
Qed.
Lemma fold_pick {A} (skip : A -> bool) (f : A -> R) : (forall a, 0 <= f a) -> forall l (st : option A * R),
  (fst st = None -> snd st = -1) ->
  let r := fold_left (fun (st : option A * R) a => if skip a then st else if Rlt_bool (snd st) (f a) then (Some a, f a) else st) l st in
  (fst r = None -> fst st = None /\ forall a, In a l -> skip a = true) /\ (forall a, fst r = Some a -> fst st = Some a \/ (In a l /\ skip a = false)).
Proof.
  intros P. induction l as [|a l IH]; intros st I; cbn [fold_left]; cbv zeta.
  - split; [intros E; split; [auto|intros a []]|auto].
  - destruct (skip a) eqn:Sk.
    + destruct (IH st I) as [A1 A2]. split; [intros E; destruct (A1 E) as [B1 B2]; split; auto; intros b [<-|B]; auto|]. intros b E. destruct (A2 b E) as [B|[B1 B2]]; auto. right. split; auto. now right.
    + destruct (Rlt_bool_spec (snd st) (f a)) as [L|L].
      * destruct (IH (Some a, f a)) as [A1 A2]; [discriminate|]. split; [intros E; destruct (A1 E); discriminate|]. intros b E. destruct (A2 b E) as [B|[B1 B2]]; [injection B as <-; right; split; [now left|auto]|]. right. split; auto. now right.
      * destruct (IH st I) as [A1 A2]. split.
        -- intros E. destruct (A1 E) as [B1 B2]. specialize (I B1). specialize (P a). lra.
        -- intros b E. destruct (A2 b E) as [B|[B1 B2]]; auto. right. split; auto. now right.
Qed.
Lemma order_ok (l : list (coords R)) : exists order, @read_order R Z n l = Some order /\ (forall i, In i order <-> (i < length l)%nat) /\ ((length l <= 3)%nat -> length order = length l).
Proof.
  unfold read_order, point. destruct (Nat.ltb_spec (length l) 3) as [L|L].
  - exists (seq 0 (length l)). split; auto. split; [intros i; rewrite in_seq; lia|]. intros _. apply seq_length.
  - unfold far_pair.
    pose proof (fold_pick (fun _ : nat * nat => false) (fun ij => @sloppy_dist R Z n (nth (fst ij) l (coords_default n)) (nth (snd ij) l (coords_default n))) (fun ij => sloppy_nonneg _ _) (pairs_of (length l)) (None, -1) (fun _ => eq_refl)) as P. cbv zeta in P.
    cbn [nltb nopp n1 nofZ Rnum]. change (- (1)) with (-1) in *. replace (- IZR 1) with (-1) by lra. unfold point in *.
    set (r := fold_left _ (pairs_of (length l)) (None, -1)) in *. destruct P as [P1 P2].
    assert (In12 : forall i j, In (i, j) (pairs_of (length l)) <-> (i < j < length l)%nat).
    { intros i j. unfold pairs_of. rewrite in_flat_map. split.
      - intros (x & X & Y). apply in_map_iff in Y as (y & Q & Y). injection Q as -> ->. apply in_seq in X, Y. lia.
      - intros [A B]. exists i. split; [apply in_seq; lia|]. apply in_map_iff. exists j. split; auto. apply in_seq. lia. }
    match goal with |- context [fst ?x] => change x with r end.
    destruct (fst r) as [[p1 p2]|] eqn:E1.
    2:{ exfalso. destruct (P1 eq_refl) as [_ Q]. specialize (Q (0, 1)%nat). rewrite In12 in Q. specialize (Q ltac:(lia)). discriminate. }
    destruct (P2 _ eq_refl) as [Q|[Q _]]; [discriminate|]. apply In12 in Q. clear P1 P2 r E1.
    unfold far_third.
    pose proof (fold_pick (fun i : nat => Nat.eqb i p1 || Nat.eqb i p2)%bool (fun i => @float_min R Z (@sloppy_dist R Z n (nth i l (coords_default n)) (nth p1 l (coords_default n))) (@sloppy_dist R Z n (nth i l (coords_default n)) (nth p2 l (coords_default n))))) as P.
    specialize (P ltac:(intros i; unfold float_min; destruct (nltb _ _); apply sloppy_nonneg) (seq 0 (length l)) (None, -1) (fun _ => eq_refl)). cbv zeta in P. 
    cbn [nltb nopp n1 nofZ Rnum]. replace (- IZR 1) with (-1) by lra. unfold point in *.
    set (r := fold_left _ (seq 0 (length l)) (None, -1)) in *. destruct P as [P1 P2].
    match goal with |- context [fst ?x] => change x with r end.
    destruct (fst r) as [p3|] eqn:E1.
    2:{ exfalso. destruct (P1 eq_refl) as [_ X]. assert (C : exists k, (k < 3 /\ k <> p1 /\ k <> p2)%nat) by (destruct p1 as [|[|]]; destruct p2 as [|[|]]; first [exists 0%nat; lia|exists 1%nat; lia|exists 2%nat; lia]).
        destruct C as (k & K1 & K2 & K3). specialize (X k ltac:(apply in_seq; lia)). apply orb_true_iff in X as [X|X]; apply Nat.eqb_eq in X; lia. }
    destruct (P2 _ eq_refl) as [X|[X Y]]; [discriminate|]. apply in_seq in X. apply orb_false_iff in Y as [Y1 Y2]. apply Nat.eqb_neq in Y1, Y2.
    eexists. split; [reflexivity|]. split.
    + intros i. cbn [In]. rewrite filter_In, in_seq, negb_true_iff, !orb_false_iff, !Nat.eqb_neq. lia.
    + intros L3. cbn [length]. assert (L' : length l = 3%nat) by lia. rewrite L' in *. cbn [seq filter].
      assert (forall i, (i < 3)%nat -> negb (Nat.eqb i p1 || Nat.eqb i p2 || Nat.eqb i p3) = false).
      { intros i Hi. apply negb_false_iff. rewrite !orb_true_iff, !Nat.eqb_eq. lia. }
      rewrite !H by lia. reflexivity.
Qed.
Lemma find_index_ok (P : nat -> coords R -> Prop) : forall order (l2 : list (coords R)), Forall2 P order l2 -> forall k, In k order -> P k (find_index k order l2).
Proof.
  induction order as [|i order IH]; intros l2 F k K; [contradiction|]. inversion F as [|? c ? l2' Pi F' E1 E2]. cbn [find_index]. destruct (Nat.eqb_spec i k) as [->|N]; auto.
  apply IH; auto. destruct K as [K|K]; [congruence|exact K].
Qed.

Lemma build_spec (l : list (coords R)) s : l <> [] ->
  match @build_pg R Z n l e s with
  | Got p s' => s' = s /\ pg_ok n p /\ pg_num p = length l /\
      exists j, (j < length l)%nat /\ forall k x, nth_error l k = Some x -> exists c, @pg_corner R Z n p k = Ret c /\ valid c = true /\
        dist2 n (co c) (co x) <= e * dist2 n (co x) (co (nth j l (coords_default n)))
  | ParseError => (length l > 3)%nat
  | _ => False
  end.
Proof.
  intros Ne. unfold build_pg. destruct (order_ok l) as (order & -> & Io & Lo).
  set (pts := map (fun i => nth i l (coords_default n)) order).
  pose proof (expand_all_spec pts (orient_default n) 3 s) as S.
  assert (F0 : frame_ok n (@orient_default R Z n)) by (unfold frame_ok; cbn; intuition discriminate). specialize (S F0 (le_n 3)).
  change (map (fun i : nat => nth i l (coords_default n)) order) with pts.
  destruct (expand_all n (orient_default n) 3 pts e s) as [[o l2] s'| | | | |]; cbn [iobind fst snd]; auto.
  - destruct S as (-> & F & Pl & _ & _ & Or). split; auto. 
    assert (Pl' : Forall2 (fun k c => placed o (nth k l (coords_default n)) c) order l2).
    { clear - Pl. unfold pts in Pl. revert l2 Pl. induction order as [|i order IH]; intros l2 Pl; cbn [map] in Pl; inversion Pl; constructor; auto. }
    pose proof (find_index_ok _ order l2 Pl') as Fi. cbn beta in Fi.
    assert (Nth : forall k, (k < length l)%nat -> nth_error (map (fun k => find_index k order l2) (seq 0 (length l))) k = Some (find_index k order l2)).
    { intros k K. apply (map_nth_error (fun k => find_index k order l2) k). rewrite (nth_error_nth' _ 0%nat) by (rewrite seq_length; lia). now rewrite seq_nth by lia. }
    split; [|split].
    + split; auto. cbn [pcorners pplane]. apply Forall_forall. intros c C. apply in_map_iff in C as (k & <- & K). apply in_seq in K. apply Fi. apply Io. unfold point in *. lia.
    + unfold pg_num. cbn [pcorners]. now rewrite map_length, seq_length.
    + destruct order as [|j order']; [exfalso; assert (In 0%nat []) by (apply Io; destruct l; [congruence|cbn; lia]); auto|].
      exists j. split; [apply Io; now left|]. intros k x K. assert (Hk : (k < length l)%nat) by (apply nth_error_Some; congruence).
      destruct (Fi k (proj2 (Io k) Hk)) as (Fl & V & D). destruct (corner_def 0 n (mkP o (map (fun k => find_index k (j :: order') l2) (seq 0 (length l)))) k _ (Nth k Hk) Fl) as (c & C & Vc & Pc).
      exists c. split; [exact C|]. split; [congruence|]. cbn [pplane] in Pc. assert (Ex : nth k l (coords_default n) = x) by now apply nth_error_nth. rewrite Ex in D.
      rewrite (dist2_ext n _ _ (plane_at o (co (find_index k (j :: order') l2))) (co x)); auto using pteq_refl.
      rewrite (Or eq_refl (nth j l (coords_default n)) (map (fun i => nth i l (coords_default n)) order') eq_refl) in D. exact D.
  - unfold pts in S. rewrite map_length in S. destruct (Nat.le_gt_cases (length l) 3) as [L3|L3]; [rewrite (Lo L3) in S; lia|lia].
Qed.
End Build.
