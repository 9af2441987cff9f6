(** Lemmas for the text round trips. *)
From Coq Require Import ZArith NArith Bool Ascii String List Lia.
From Verif Require Import Base Scalar VecModel RotModel QuatModel ShapeModel PolyModel StreamModel StreamSpec.
Import ListNotations.
Local Open Scope char_scope.

Lemma skip_blank sp t : blank sp -> skip_space (sp ++ t) = skip_space t.
Proof. induction sp as [|c sp IH]; intros B; [reflexivity|]. cbn. rewrite (B c) by now left. apply IH. intros x X. apply B. now right. Qed.
Lemma skip_split t : exists sp, blank sp /\ t = sp ++ skip_space t.
Proof.
  induction t as [|c t (sp & B & E)]; [exists []; split; [intros x []|reflexivity]|]. cbn. destruct (is_space c) eqn:S.
  - exists (c :: sp). split; [intros x [->|X]; auto|]. cbn. now f_equal.
  - exists []. split; [intros x []|reflexivity].
Qed.
Lemma skip_first t c r : skip_space t = c :: r -> is_space c = false.
Proof. induction t as [|x t IH]; [discriminate|]. cbn. destruct (is_space x) eqn:S; auto. intros E. injection E as <- <-. exact S. Qed.
Lemma get_char_at next sp c r : blank sp -> is_space c = false -> get_char next (Some (sp ++ c :: r)) = (Some c, Some r).
Proof. intros B S. unfold get_char. rewrite skip_blank by auto. cbn. now rewrite S. Qed.
Lemma get_char_hd next c r : is_space c = false -> get_char next (Some (c :: r)) = (Some c, Some r).
Proof. intros S. exact (get_char_at next [] c r (fun x (X : In x []) => match X with end) S). Qed.
Lemma get_char_inv next s c s' : get_char next s = (Some c, s') ->
  (next = Some c /\ s' = None /\ (s = None \/ exists t, s = Some t /\ skip_space t = [])) \/
  (is_space c = false /\ exists sp r, blank sp /\ s = Some (sp ++ c :: r) /\ s' = Some r).
Proof.
  unfold get_char. destruct s as [t|]; [|intros E; injection E as -> <-; left; auto]. destruct (skip_split t) as (sp & B & E). destruct (skip_space t) as [|x r] eqn:K.
  - intros X. injection X as -> <-. left. eauto 6.
  - intros X. injection X as -> <-. right. split; [apply (skip_first t c r K)|]. exists sp, r. rewrite E at 1. auto.
Qed.
Lemma blank_nil : blank []. Proof. intros c []. Qed.
Lemma blank_1 : blank [" "]. Proof. intros c [<-|[]]. reflexivity. Qed.

Section Numbers.
Variable T : Type.
Variable print : T -> text.
Variable scan : text -> option (T * text).
Variable bad : T.
Variable ok : T -> Prop.
Hypothesis exact : prints_exactly print scan ok.

Lemma get_num_ok pre x rest : blank pre -> ok x -> ends rest -> get_num scan bad (Some (pre ++ print x ++ rest)) = (x, Some rest).
Proof. intros B O E. unfold get_num. now rewrite (exact x O pre rest B E). Qed.
Lemma ends_char c r : c = "," \/ c = ")" -> ends (c :: r).
Proof. intros C. right. exists c, r. tauto. Qed.
Lemma read_list_S k next s : read_list scan bad (S k) next s =
  let (x, s) := get_num scan bad s in
  match get_char (Some next) s with
  | (Some c, s) => if Ascii.eqb c (match k with O => ")" | _ => "," end) then iobind (read_list scan bad k c s) (fun l s => Got (x :: l) s) else ParseError
  | (None, _) => Uninit
  end.
Proof. reflexivity. Qed.
Lemma read_list_ok : forall l next rest, Forall ok l -> read_list scan bad (length l) next (Some (write_list print l ++ rest)) = Got l (Some rest).
Proof.
  induction l as [|x l IH]; intros next rest O; [reflexivity|]. apply Forall_cons_iff in O as [Ox Ol]. cbn [length].
  destruct l as [|y l].
  - cbn [write_list length read_list]. rewrite <- app_assoc. pose proof (get_num_ok [] x ([")"] ++ rest) blank_nil Ox (ends_char ")" rest (or_intror eq_refl))) as G.
    cbn [app] in G. cbn [app]. rewrite G. cbn. reflexivity.
  - change (write_list print (x :: y :: l)) with (print x ++ "," :: write_list print (y :: l)). rewrite <- app_assoc. cbn [app].
    pose proof (get_num_ok [] x ("," :: write_list print (y :: l) ++ rest) blank_nil Ox (ends_char "," _ (or_introl eq_refl))) as G. cbn [app] in G.
    rewrite read_list_S, G. cbv beta iota.
    rewrite get_char_hd by reflexivity.
    cbn [length]. rewrite Ascii.eqb_refl. change (S (length l)) with (length (y :: l)).
    rewrite IH by auto. reflexivity.
Qed.
Lemma expect_ok c next sp r : blank sp -> is_space c = false -> expect c next (Some (sp ++ c :: r)) = Got tt (Some r).
Proof. intros B S. unfold expect. rewrite get_char_at by auto. now rewrite Ascii.eqb_refl. Qed.
Lemma read_coords_ok l sp rest : blank sp -> Forall ok l -> read_coords scan bad (length l) (Some (sp ++ write_coords print l ++ rest)) = Got l (Some rest).
Proof.
  intros B O. unfold read_coords, write_coords. cbn [app]. rewrite expect_ok by auto. cbn [iobind]. now apply read_list_ok.
Qed.
Lemma read_point_ok dim p sp rest : blank sp -> ok_point ok dim p -> read_point scan bad dim (Some (sp ++ write_point print p ++ rest)) = Got p (Some rest).
Proof.
  intros B (L & O & V). unfold read_point, write_point. rewrite <- L, read_coords_ok by auto. cbn [iobind]. f_equal. destruct p as [l v]. cbn in *. now rewrite V.
Qed.
Lemma read_point_0 dim p rest : ok_point ok dim p -> read_point scan bad dim (Some (write_point print p ++ rest)) = Got p (Some rest).
Proof. intros O. exact (read_point_ok dim p [] rest blank_nil O). Qed.

Lemma read_box_ok dim b rest : ok_point ok dim (low b) -> ok_point ok dim (high b) ->
  read_box scan bad dim (Some (write_box print b ++ rest)) = Got b (Some rest).
Proof.
  intros L H. unfold read_box, write_box. rewrite <- !app_assoc.
  change (skip_to_s "=" None (Some (txt "AxisBox: m_low = " ++ ?t))) with (Got tt (Some ([" "] ++ t))). cbn [iobind].
  rewrite read_point_ok by auto using blank_1. cbn [iobind].
  change (skip_to_s "=" (Some "=") (Some (txt ", m_high = " ++ ?t))) with (Got tt (Some ([" "] ++ t))). cbn [iobind].
  rewrite read_point_ok by auto using blank_1. now destruct b.
Qed.
Lemma read_segment_ok dim g rest : ok_point ok dim (end1 g) -> ok_point ok dim (end2 g) ->
  read_segment scan bad dim (Some (write_segment print g ++ rest)) = Got g (Some rest).
Proof.
  intros L H. unfold read_segment, write_segment. rewrite <- !app_assoc.
  change (skip_to_s "=" None (Some (txt "Segment: m_p1 = " ++ ?t))) with (Got tt (Some ([" "] ++ t))). cbn [iobind].
  rewrite read_point_ok by auto using blank_1. cbn [iobind].
  change (skip_to_s "=" (Some "=") (Some (txt ", m_p2 = " ++ ?t))) with (Got tt (Some ([" "] ++ t))). cbn [iobind].
  rewrite read_point_ok by auto using blank_1. now destruct g.
Qed.
Lemma read_ball_ok dim b rest : ok_point ok dim (center b) -> ok (radius b) -> ends rest ->
  read_ball scan bad dim (Some (write_ball print b ++ rest)) = Got b (Some rest).
Proof.
  intros L H E. unfold read_ball, write_ball. rewrite <- !app_assoc.
  change (skip_to_s "=" None (Some (txt "Ball: m_center = " ++ ?t))) with (Got tt (Some ([" "] ++ t))). cbn [iobind].
  rewrite read_point_ok by auto using blank_1. cbn [iobind].
  change (skip_to_s "=" (Some "=") (Some (txt ", m_radius = " ++ ?t))) with (Got tt (Some ([" "] ++ t))). cbn [iobind].
  rewrite get_num_ok by auto using blank_1. now destruct b.
Qed.

Lemma read_rows_ok dim : forall rows next rest, Forall (fun r => length r = dim /\ Forall ok r) rows ->
  read_rows scan bad dim (length rows) next (Some (write_rows print rows ++ rest)) = Got rows (Some rest).
Proof.
  induction rows as [|r rows IH]; intros next rest O; [reflexivity|]. apply Forall_cons_iff in O as [[Lr Or] Ol]. cbn [length].
  assert (R : forall rest', read_coords scan bad dim (Some (write_coords print r ++ rest')) = Got r (Some rest')).
  { intros rest'. rewrite <- Lr. exact (read_coords_ok r [] rest' blank_nil Or). }
  assert (St : forall k s, read_rows scan bad dim (S k) next s = iobind (read_coords scan bad dim s) (fun row s =>
      match get_char (Some next) s with
      | (Some c, s) => if Ascii.eqb c (match k with O => ")" | _ => "," end) then iobind (read_rows scan bad dim k c s) (fun l s => Got (row :: l) s) else ParseError
      | (None, _) => Uninit
      end)) by reflexivity. rewrite St. clear St.
  destruct rows as [|r2 rows].
  - cbn [write_rows length]. rewrite <- app_assoc, R. reflexivity.
  - change (write_rows print (r :: r2 :: rows)) with (write_coords print r ++ "," :: write_rows print (r2 :: rows)). rewrite <- app_assoc, R. cbn [iobind app length].
    rewrite get_char_hd by reflexivity.
    rewrite Ascii.eqb_refl.
    change (S (length rows)) with (length (r2 :: rows)). rewrite IH by auto. reflexivity.
Qed.
Lemma read_corners_ok dim : forall l next rest, l <> [] -> Forall (ok_point ok dim) l -> forall fuel, (length l <= fuel)%nat ->
  read_corners scan bad fuel dim next (Some (write_corners print l ++ rest)) = Got l (Some rest).
Proof.
  induction l as [|p l IH]; intros next rest N O fuel F; [congruence|]. clear N. apply Forall_cons_iff in O as [Op Ol].
  destruct fuel as [|fuel]; [cbn in F; lia|]. cbn [read_corners].
  destruct l as [|p2 l].
  - cbn [write_corners]. rewrite <- app_assoc, read_point_0 by auto. reflexivity.
  - change (write_corners print (p :: p2 :: l)) with (write_point print p ++ "," :: write_corners print (p2 :: l)). rewrite <- app_assoc, read_point_0 by auto. cbn [iobind app].
    rewrite get_char_hd by reflexivity.
    change (Ascii.eqb "," ")") with false. cbn iota. rewrite Ascii.eqb_refl. rewrite IH; [reflexivity|discriminate|auto|cbn [length] in *; lia].
Qed.
Lemma read_pg2_ok l rest fuel : Forall (ok_point ok 2) l -> (length l <= fuel)%nat ->
  read_pg2 scan bad fuel (Some (write_pg2 print l ++ rest)) = Got l (Some rest).
Proof.
  intros O F. unfold read_pg2, write_pg2. destruct l as [|p l].
  - reflexivity.
  - rewrite <- app_assoc. change (read_start_s (Some (txt "Polygon: (" ++ ?t))) with (Got false (Some t)). cbn [iobind]. apply read_corners_ok; auto. discriminate.
Qed.

(** ** What is accepted *)
Lemma read_list_none : forall num next, (num > 0)%nat -> next <> ")" -> read_list scan bad num next None = ParseError.
Proof.
  induction num as [|k IH]; intros next P Nx; [lia|]. cbn [read_list get_num get_char]. destruct k as [|k].
  - destruct (Ascii.eqb_spec next ")"); [congruence|reflexivity].
  - destruct (Ascii.eqb_spec next ","); [|reflexivity]. rewrite IH by (auto; lia). reflexivity.
Qed.
Lemma number_then_inv c t x rest : number_then scan c t x rest -> get_num scan bad (Some t) = (x, snd (get_num scan bad (Some t))) /\
  forall next, get_char next (snd (get_num scan bad (Some t))) = (Some c, Some rest).
Proof. intros (sp & r & E & B & S & ->). unfold get_num. rewrite E. cbn [snd]. split; auto. intros next. now apply get_char_at. Qed.
Lemma read_list_iff : forall num next t l s, (num > 0)%nat -> next <> ")" ->
  (read_list scan bad num next (Some t) = Got l s <-> exists rest, s = Some rest /\ length l = num /\ list_text scan t l rest).
Proof.
  induction num as [|k IH]; intros next t l s P Nx; [lia|]. split.
  - intros E. cbn [read_list] in E. unfold get_num in E. destruct (scan t) as [[x r]|] eqn:Sc.
    + destruct (get_char (Some next) (Some r)) as [[c|] s2] eqn:G; [|discriminate].
      apply get_char_inv in G as [(Z & -> & _)|(Sp & sp & r' & B & Er & ->)].
      * injection Z as ->. destruct k as [|k]; [destruct (Ascii.eqb_spec c ")"); [congruence|discriminate]|]. destruct (Ascii.eqb_spec c ","); [|discriminate].
        rewrite read_list_none in E by (auto; lia). discriminate.
      * injection Er as ->. destruct k as [|k].
        -- destruct (Ascii.eqb_spec c ")") as [->|]; [|discriminate]. cbn in E. injection E as <- <-. exists r'. split; auto. split; auto. constructor. exists sp. eauto.
        -- destruct (Ascii.eqb_spec c ",") as [->|]; [|discriminate]. destruct (read_list scan bad (S k) "," (Some r')) as [l' s'| | | | |] eqn:R; try discriminate.
           cbn [iobind] in E. injection E as <- <-. apply IH in R as (rest & -> & L & W); [|lia|discriminate]. exists rest. split; auto. split; [cbn; lia|].
           eapply lt_more; eauto. exists sp. eauto.
    + cbn [get_char] in E. destruct k as [|k]; [destruct (Ascii.eqb_spec next ")"); [congruence|discriminate]|]. destruct (Ascii.eqb_spec next ","); [|discriminate].
      rewrite read_list_none in E by (auto; lia). discriminate.
  - intros (rest & -> & L & W). cbn [read_list]. destruct W as [t x rest W|t x r l rest W W'].
    + cbn in L. injection L as <-. destruct (number_then_inv _ _ _ _ W) as [G C]. rewrite G, C, Ascii.eqb_refl. reflexivity.
    + cbn in L. injection L as L. destruct (number_then_inv _ _ _ _ W) as [G C]. rewrite G, C. assert (0 < length l)%nat by (destruct W'; cbn; lia).
      destruct k as [|k]; [lia|]. rewrite Ascii.eqb_refl.
      assert (R : read_list scan bad (S k) "," (Some r) = Got l (Some rest)) by (apply IH; [lia|discriminate|eauto]). rewrite R. reflexivity.
Qed.
Lemma read_list_cases : forall num next s, (exists l s', read_list scan bad num next s = Got l s') \/ read_list scan bad num next s = ParseError.
Proof.
  induction num as [|k IH]; intros next s; [left; eexists; eexists; reflexivity|]. cbn [read_list]. destruct (get_num scan bad s) as [x s2].
  destruct (get_char (Some next) s2) as [[c|] s3] eqn:G.
  - destruct (Ascii.eqb c _); auto. destruct (IH c s3) as [(l & s' & ->)| ->]; cbn; eauto.
  - unfold get_char in G. destruct s2 as [t|]; [|discriminate]. destruct (skip_space t); discriminate.
Qed.
Lemma skip_nil_blank t : skip_space t = [] <-> blank t.
Proof.
  split.
  - intros E. destruct (skip_split t) as (sp & B & X). rewrite E, app_nil_r in X. now subst.
  - intros B. rewrite <- (app_nil_r t), skip_blank by auto. reflexivity.
Qed.
Lemma read_coords_iff num t l s : (num > 0)%nat ->
  (read_coords scan bad num (Some t) = Got l s <-> exists rest, s = Some rest /\ length l = num /\ coords_text scan t l rest).
Proof.
  intros P. unfold read_coords, expect. split.
  - intros E. destruct (get_char None (Some t)) as [[c|] s2] eqn:G; [|discriminate]. apply get_char_inv in G as [(Z & _)|(Sp & sp & r & B & Er & ->)]; [discriminate|].
    injection Er as ->. destruct (Ascii.eqb_spec c "(") as [->|]; [|discriminate]. cbn [iobind] in E. apply read_list_iff in E as (rest & -> & L & W); auto; [|discriminate].
    exists rest. split; auto. split; auto. exists sp. eauto.
  - intros (rest & -> & L & sp & t' & B & -> & W). rewrite get_char_at by auto. rewrite Ascii.eqb_refl. cbn [iobind]. apply read_list_iff; [auto|discriminate|eauto].
Qed.
Lemma read_coords_cases num t : (exists l s, read_coords scan bad num (Some t) = Got l s) \/
  (read_coords scan bad num (Some t) = ParseError) \/ (read_coords scan bad num (Some t) = Uninit /\ blank t).
Proof.
  unfold read_coords, expect, get_char. destruct (skip_space t) as [|c r] eqn:E; [right; right; split; [reflexivity|now apply skip_nil_blank]|].
  destruct (Ascii.eqb c "("); [|auto]. cbn [iobind]. destruct (read_list_cases num "(" (Some r)) as [(l & s' & ->)| ->]; eauto.
Qed.
End Numbers.
