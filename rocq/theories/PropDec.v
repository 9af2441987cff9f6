(** C69: numbers as decimal text.  17 digits bring every finite double back, with at most 15 digits writing,
    reading and writing gives the same text. *)
From Coq Require Import ZArith NArith Bool Ascii String List SpecFloat Reals Lia Lra.
From Flocq Require Import Core IEEE754.BinarySingleNaN.
From Verif Require Import Base Scalar ConstSpec ConstModel VecModel RotModel QuatModel ShapeModel PolyModel B64Lib B64Ops RoundLib RoundSpec RoundProofs2 StreamModel StreamSpec StreamProofs DecModel DecSpec DecProofs DecProofs2 DecProofs3.
Import ListNotations.
Local Open Scope R_scope.
Local Open Scope list_scope.

(** ** What the conversions of the standard library do *)
Lemma p10_power k : p10 k = powerRZ 10 k.
Proof. unfold p10. rewrite bpow_powerRZ. reflexivity. Qed.
(** Writing: the digits are those of a decimal within half a unit in the last of prec digits. *)
Theorem C69_print_nearest : forall prec x, (1 <= prec)%nat -> finite_double x -> real x <> 0 ->
  exists d k x0, (10 ^ (Z.of_nat prec - 1) <= d < 10 ^ Z.of_nat prec)%Z /\ powerRZ 10 x0 <= Rabs (real x) < powerRZ 10 (x0 + 1) /\
    Rabs (IZR d * powerRZ 10 (k - Z.of_nat prec + 1) - Rabs (real x)) <= / 2 * powerRZ 10 (x0 - Z.of_nat prec + 1) /\
    print_double prec x = (if sign_SF x then ["-"%char] else []) ++ layout prec d k.
Proof.
  intros prec x P F N. apply fl_iff in F. destruct (print_scan prec x F N) as (d & k & x0 & Pr & D & X & C & _). replace (Nat.max prec 1) with prec in * by lia.
  exists d, k, x0. rewrite <- !p10_power. split; auto. split; auto. split; auto. rewrite Pr. unfold minus. destruct (sign_SF x); reflexivity.
Qed.
(** Reading: digits, point, digits and exponent give the double nearest to that decimal. *)
Theorem C69_scan_nearest : forall (s : bool) pre w f (ex : option Z) rest, blank pre -> ends rest -> w <> [] -> Forall (fun d => 0 <= d <= 9)%Z (w ++ f) ->
  let v := decimal (w ++ f) (match ex with Some x => x | None => 0%Z end - Z.of_nat (length f)) in v <> 0 -> nearest v < bpow radix2 1024 ->
  exists z, scan_double (pre ++ (if s then ["-"%char] else []) ++ map digit_char w ++ fraction f ++ match ex with Some x => exponent x | None => [] end ++ rest) = Some (z, rest) /\
    finite_double z /\ real z = (if s then - nearest v else nearest v).
Proof.
  intros s pre w f ex rest B E Nw D v Nv O. apply Forall_app in D as D'. destruct D' as [Dw Df]. assert (Ev : v = IZR (number (w ++ f)) * p10 (match ex with Some x => x | None => 0%Z end - Z.of_nat (length f))) by (unfold v, decimal; now rewrite p10_power). clearbody v.
  pose proof (scan_parts s pre w f ex rest B Nw Dw Df (ends_plain rest E)) as S.
  assert (N0 : (0 <= number (w ++ f))%Z) by (apply number_nonneg; exact D).
  assert (N1 : (0 < number (w ++ f))%Z). { destruct (Z.eq_dec (number (w ++ f)) 0) as [Z|Z]; [|lia]. exfalso. apply Nv. rewrite Ev, Z. ring. }
  assert (V : 0 < v). { rewrite Ev. apply Rmult_lt_0_compat; [now apply IZR_lt|apply p10_pos]. }
  destruct (nearest_ok s (number (w ++ f)) (match ex with Some x => x | None => 0%Z end - Z.of_nat (length f)) N1) as (z & Z0 & Z1 & Z2 & Z3).
  { rewrite <- Ev. change (Rabs (nearest v) < bpow radix2 1024). rewrite Rabs_pos_eq; auto. apply (rnd_nonneg v). lra. }
  exists z. split; [|split; [now apply fl_iff|rewrite Ev; exact Z2]]. unfold outcome_of in S. rewrite Z0 in S. rewrite <- S. f_equal. f_equal. unfold minus. destruct s; cbn [app]; rewrite <- ?app_assoc; reflexivity.
Qed.

(** ** One number *)
(** With 17 digits or more every finite double is read back as itself, -0 included. *)
Theorem C69_number_exact : forall prec, (17 <= prec)%nat -> prints_exactly (print_double prec) scan_double finite_double.
Proof. intros prec P x F pre rest B E. apply fl_iff in F. apply exact_17; auto. now apply ends_plain. Qed.
Lemma digits_error_eq prec : (1 <= prec)%nat -> / 2 * p10 (1 - Z.of_nat prec) + 2 * u64 = digits_error prec.
Proof.
  intros P. unfold digits_error. f_equal.
  - f_equal. replace (1 - Z.of_nat prec)%Z with (- Z.of_nat (prec - 1))%Z by lia. rewrite p10_inv. f_equal. rewrite p10_power. symmetry. apply pow_powerRZ.
  - unfold u64. change 2 with (bpow radix2 1). rewrite <- bpow_plus. reflexivity.
Qed.
(** The double that the text of x denotes. *)
Definition reread (prec : nat) (x : spec_float) : spec_float := match scan_double (print_double prec x) with Some (z, _) => z | None => x end.
Lemma reread_ok prec x : (1 <= prec <= 15)%nat -> plain_size x -> to_digits prec x (reread prec x) /\ print_double prec (reread prec x) = print_double prec x /\
  forall pre rest, blank pre -> ends rest -> scan_double (pre ++ print_double prec x ++ rest) = Some (reread prec x, rest).
Proof.
  intros P [F S]. apply fl_iff in F as F'. assert (G : exists z, to_digits prec x z /\ print_double prec z = print_double prec x /\ forall pre rest, blank pre -> plain rest -> scan_double (pre ++ print_double prec x ++ rest) = Some (z, rest)).
  { destruct S as [Z|S].
    - exists x. split; [|split]; auto.
      + split; [exact F|]. split; [|reflexivity]. unfold Rminus. rewrite Rplus_opp_r, Rabs_R0, Z, Rabs_R0. lra.
      + intros pre rest B E. destruct x as [s|s| |s m e]; try (destruct F as [_ []]); [exact (scan_zero s pre rest B E)|]. exfalso.
        change (val (S754_finite s m e) = 0) in Z. rewrite finite_value in Z. assert (V : 0 < IZR (Zpos m * 2 ^ Z.max e 0) / IZR (2 ^ Z.max (- e) 0)) by (apply Rdiv_lt_0_compat; apply IZR_lt; [apply Z.mul_pos_pos; [lia|]|]; apply Z.pow_pos_nonneg; lia). destruct s; lra.
    - destruct (reprint prec x ltac:(lia) F' S) as (z & Sc & Z1 & Z2 & Z3 & Z4). replace (Nat.max prec 1) with prec in Z3 by lia. rewrite digits_error_eq in Z3 by lia.
      exists z. split; [split; [now apply fl_iff|split; auto]|]. split; auto. }
  destruct G as (z & Z1 & Z2 & Z3). assert (R : reread prec x = z). { unfold reread. specialize (Z3 [] [] blank_nil I). rewrite app_nil_r in Z3. cbn [app] in Z3. now rewrite Z3. }
  rewrite R. split; auto. split; auto. intros pre rest B E. apply Z3; auto. now apply ends_plain.
Qed.
(** With at most 15 digits the number comes back to that many digits, and writes the same text again. *)
Theorem C69_number_digits : forall prec x, (1 <= prec <= 15)%nat -> plain_size x -> exists z, to_digits prec x z /\ print_double prec z = print_double prec x /\
  forall pre rest, blank pre -> ends rest -> scan_double (pre ++ print_double prec x ++ rest) = Some (z, rest).
Proof. intros prec x P S. exists (reread prec x). now apply reread_ok. Qed.

(** ** Objects, in any dimension, with any text after them *)
Section Objects.
Variable bad : spec_float.
Theorem C69_objects_exact : forall prec, (17 <= prec)%nat -> let pr := print_double prec in
  (forall dim p sp rest, blank sp -> finite_point dim p -> read_point scan_double bad dim (Some (sp ++ write_point pr p ++ rest)) = Got p (Some rest)) /\
  (forall dim b rest, finite_point dim (low b) -> finite_point dim (high b) -> read_box scan_double bad dim (Some (write_box pr b ++ rest)) = Got b (Some rest)) /\
  (forall dim g rest, finite_point dim (end1 g) -> finite_point dim (end2 g) -> read_segment scan_double bad dim (Some (write_segment pr g ++ rest)) = Got g (Some rest)) /\
  (forall dim b rest, finite_point dim (center b) -> finite_double (radius b) -> ends rest -> read_ball scan_double bad dim (Some (write_ball pr b ++ rest)) = Got b (Some rest)) /\
  (forall l rest fuel, Forall (finite_point 2) l -> (length l <= fuel)%nat -> read_pg2 scan_double bad fuel (Some (write_pg2 pr l ++ rest)) = Got l (Some rest)).
Proof.
  intros prec P pr. pose proof (C69_number_exact prec P) as E. fold pr in E.
  split; [exact (read_point_ok _ pr scan_double bad _ E)|]. split; [exact (read_box_ok _ pr scan_double bad _ E)|]. split; [exact (read_segment_ok _ pr scan_double bad _ E)|].
  split; [exact (read_ball_ok _ pr scan_double bad _ E)|]. exact (read_pg2_ok _ pr scan_double bad _ E).
Qed.

Definition reread_point (prec : nat) (p : coords spec_float) : coords spec_float := mkC (map (reread prec) (el p)) (valid p).
Definition seen (prec : nat) (z : spec_float) : Prop := exists x, plain_size x /\ z = reread prec x.
Lemma seen_exact prec : (1 <= prec <= 15)%nat -> prints_exactly (print_double prec) scan_double (seen prec).
Proof. intros P z (x & S & ->) pre rest B E. destruct (reread_ok prec x P S) as (_ & Q & R). rewrite Q. auto. Qed.
Lemma reread_text prec l : (1 <= prec <= 15)%nat -> Forall plain_size l -> write_list (print_double prec) (map (reread prec) l) = write_list (print_double prec) l.
Proof.
  intros P F. induction F as [|x l Fx Fl IH]; [reflexivity|]. destruct (reread_ok prec x P Fx) as (_ & Q & _). cbn [map write_list]. rewrite Q. destruct l as [|y l]; [reflexivity|]. cbn [map] in IH |- *. now rewrite IH.
Qed.
Lemma reread_point_ok prec dim p : (1 <= prec <= 15)%nat -> plain_point dim p ->
  ok_point (seen prec) dim (reread_point prec p) /\ to_digits_point prec p (reread_point prec p) /\ write_point (print_double prec) (reread_point prec p) = write_point (print_double prec) p.
Proof.
  intros P (L & F & V). split; [|split].
  - split; [cbn; now rewrite map_length|]. split; [|exact V]. cbn. apply Forall_map. eapply Forall_impl; [|exact F]. intros x Px. now exists x.
  - split; [|exact V]. cbn. clear - F P. induction F as [|x l Fx Fl IH]; constructor; auto. now apply reread_ok.
  - unfold write_point, write_coords. cbn. f_equal. now apply reread_text.
Qed.
Lemma reread_corners prec l : (1 <= prec <= 15)%nat -> Forall (plain_point 2) l ->
  Forall (ok_point (seen prec) 2) (map (reread_point prec) l) /\ Forall2 (to_digits_point prec) l (map (reread_point prec) l) /\
  write_corners (print_double prec) (map (reread_point prec) l) = write_corners (print_double prec) l.
Proof.
  intros P F. induction F as [|p l Fp Fl (I1 & I2 & I3)]; [repeat constructor|]. destruct (reread_point_ok prec 2 p P Fp) as (A & B & C). split; [constructor; auto|]. split; [constructor; auto|].
  cbn [map write_corners]. rewrite C. destruct l as [|q l]; [reflexivity|]. cbn [map] in I3 |- *. now rewrite I3.
Qed.
Theorem C69_point_digits : forall prec dim p sp rest, (1 <= prec <= 15)%nat -> blank sp -> plain_point dim p ->
  exists q, read_point scan_double bad dim (Some (sp ++ write_point (print_double prec) p ++ rest)) = Got q (Some rest) /\ to_digits_point prec p q /\
    write_point (print_double prec) q = write_point (print_double prec) p.
Proof.
  intros prec dim p sp rest P B F. destruct (reread_point_ok prec dim p P F) as (A1 & A2 & A3). exists (reread_point prec p). split; auto. rewrite <- A3. apply (read_point_ok _ _ _ _ _ (seen_exact prec P)); auto.
Qed.
Theorem C69_box_digits : forall prec dim b rest, (1 <= prec <= 15)%nat -> plain_point dim (low b) -> plain_point dim (high b) ->
  exists c, read_box scan_double bad dim (Some (write_box (print_double prec) b ++ rest)) = Got c (Some rest) /\ to_digits_point prec (low b) (low c) /\ to_digits_point prec (high b) (high c) /\
    write_box (print_double prec) c = write_box (print_double prec) b.
Proof.
  intros prec dim b rest P F1 F2. destruct (reread_point_ok prec dim _ P F1) as (A1 & A2 & A3). destruct (reread_point_ok prec dim _ P F2) as (B1 & B2 & B3).
  exists (mkB (reread_point prec (low b)) (reread_point prec (high b))). assert (W : write_box (print_double prec) (mkB (reread_point prec (low b)) (reread_point prec (high b))) = write_box (print_double prec) b) by (unfold write_box; cbn [low high]; now rewrite A3, B3).
  split; [|auto]. rewrite <- W. apply (read_box_ok _ _ _ _ _ (seen_exact prec P)); auto.
Qed.
Theorem C69_segment_digits : forall prec dim g rest, (1 <= prec <= 15)%nat -> plain_point dim (end1 g) -> plain_point dim (end2 g) ->
  exists h, read_segment scan_double bad dim (Some (write_segment (print_double prec) g ++ rest)) = Got h (Some rest) /\ to_digits_point prec (end1 g) (end1 h) /\ to_digits_point prec (end2 g) (end2 h) /\
    write_segment (print_double prec) h = write_segment (print_double prec) g.
Proof.
  intros prec dim b rest P F1 F2. destruct (reread_point_ok prec dim _ P F1) as (A1 & A2 & A3). destruct (reread_point_ok prec dim _ P F2) as (B1 & B2 & B3).
  exists (mkS (reread_point prec (end1 b)) (reread_point prec (end2 b))). assert (W : write_segment (print_double prec) (mkS (reread_point prec (end1 b)) (reread_point prec (end2 b))) = write_segment (print_double prec) b) by (unfold write_segment; cbn [end1 end2]; now rewrite A3, B3).
  split; [|auto]. rewrite <- W. apply (read_segment_ok _ _ _ _ _ (seen_exact prec P)); auto.
Qed.
Theorem C69_ball_digits : forall prec dim b rest, (1 <= prec <= 15)%nat -> plain_point dim (center b) -> plain_size (radius b) -> ends rest ->
  exists c, read_ball scan_double bad dim (Some (write_ball (print_double prec) b ++ rest)) = Got c (Some rest) /\ to_digits_point prec (center b) (center c) /\ to_digits prec (radius b) (radius c) /\
    write_ball (print_double prec) c = write_ball (print_double prec) b.
Proof.
  intros prec dim b rest P F1 F2 E. destruct (reread_point_ok prec dim _ P F1) as (A1 & A2 & A3). destruct (reread_ok prec _ P F2) as (B1 & B2 & B3).
  exists (mkBall (reread_point prec (center b)) (reread prec (radius b))). assert (W : write_ball (print_double prec) (mkBall (reread_point prec (center b)) (reread prec (radius b))) = write_ball (print_double prec) b) by (unfold write_ball; cbn [center radius]; now rewrite A3, B2).
  split; [|auto]. rewrite <- W. apply (read_ball_ok _ _ _ _ _ (seen_exact prec P)); auto. now exists (radius b).
Qed.
Theorem C69_polygon_plane_digits : forall prec l rest fuel, (1 <= prec <= 15)%nat -> Forall (plain_point 2) l -> (length l <= fuel)%nat ->
  exists k, read_pg2 scan_double bad fuel (Some (write_pg2 (print_double prec) l ++ rest)) = Got k (Some rest) /\ Forall2 (to_digits_point prec) l k /\
    write_pg2 (print_double prec) k = write_pg2 (print_double prec) l.
Proof.
  intros prec l rest fuel P F L. destruct (reread_corners prec l P F) as (A1 & A2 & A3). exists (map (reread_point prec) l).
  assert (W : write_pg2 (print_double prec) (map (reread_point prec) l) = write_pg2 (print_double prec) l) by (unfold write_pg2; destruct l; [reflexivity|]; cbn [map] in A3 |- *; now rewrite A3).
  split; [|auto]. rewrite <- W. apply (read_pg2_ok _ _ _ _ _ (seen_exact prec P)); auto. now rewrite map_length.
Qed.

(** ** What is not read back *)
Lemma scan_not_finite prec x rest : match x with S754_infinity _ | S754_nan => True | _ => False end -> scan_double (print_double prec x ++ rest) = None.
Proof. destruct x as [s|s| |s m e]; intros []; [destruct s|]; reflexivity. Qed.
(** Whatever the precision, the text of a finite double is read up to its end or not at all. *)
Lemma scan_finite prec x rest : finite_double x -> ends rest -> scan_double (print_double prec x ++ rest) = None \/ exists z, scan_double (print_double prec x ++ rest) = Some (z, rest).
Proof.
  intros F E. apply ends_plain in E. destruct x as [s|s| |s m e]; try (destruct F as [_ []]).
  - right. exists (S754_zero s). exact (scan_zero s [] rest blank_nil E).
  - unfold print_double. assert (P : (1 <= Nat.max prec 1)%nat) by lia. set (p := Nat.max prec 1) in *. clearbody p.
    assert (A : (0 < Z.pos m * 2 ^ Z.max e 0)%Z) by (apply Z.mul_pos_pos; [lia|apply Z.pow_pos_nonneg; lia]). assert (B : (0 < 2 ^ Z.max (- e) 0)%Z) by (apply Z.pow_pos_nonneg; lia).
    destruct (to_decimal_ok p _ _ P A B) as (d & k & x0 & -> & D & _). change (if s then "-"%char :: layout p d k else layout p d k) with (minus s (layout p d k)).
    rewrite layout_parts. assert (D0 : (0 <= d < 10 ^ Z.of_nat p)%Z) by (pose proof (Z.pow_nonneg 10 (Z.of_nat p - 1)); lia). pose proof (parts_value p d k P D0) as V.
    destruct (parts p d k) as [[w f] ex]. destruct V as (Nw & Dw & Df & _). pose proof (scan_parts s [] w f ex rest blank_nil Nw Dw Df E) as S. cbn [app] in S. rewrite S. unfold outcome_of. destruct (nearest_double _ _ _) as [z|]; [right; now exists z|now left].
Qed.
Lemma read_failed k next : next <> ")"%char -> match Ascii.eqb next (match k with O => ")"%char | _ => ","%char end) with true => read_list scan_double bad k next None = ParseError | false => True end.
Proof.
  intros N. destruct k as [|k].
  - destruct (Ascii.eqb_spec next ")"); [contradiction|exact I].
  - destruct (Ascii.eqb next ","); [|exact I]. apply read_list_none; auto. lia.
Qed.
Lemma read_not_finite prec : forall l next rest, next <> ")"%char -> Exists (fun x => ~ finite_double x) l -> Forall is_double l ->
  read_list scan_double bad (length l) next (Some (write_list (print_double prec) l ++ rest)) = ParseError.
Proof.
  intros l. induction l as [|x l IH]; intros next rest Nx Ex D; [inversion Ex|]. inversion D as [|? ? Dx Dl]; subst.
  cbn [length]. rewrite read_list_S.
  assert (W : exists c r, write_list (print_double prec) (x :: l) ++ rest = print_double prec x ++ c :: r /\ (c = ","%char /\ r = write_list (print_double prec) l ++ rest /\ l <> [] \/ c = ")"%char /\ l = [])).
  { destruct l as [|y l]; [exists ")"%char, rest|exists ","%char, (write_list (print_double prec) (y :: l) ++ rest)]; (split; [cbn [write_list]; rewrite <- app_assoc; reflexivity|]); [right|left]; auto. repeat split. discriminate. }
  destruct W as (c & r & -> & W). pose proof (read_failed (length l) next Nx) as Fl.
  assert (Fx : (finite_double x /\ exists z, scan_double (print_double prec x ++ c :: r) = Some (z, c :: r)) \/ scan_double (print_double prec x ++ c :: r) = None).
  { assert (Y : finite_double x \/ match x with S754_infinity _ | S754_nan => True | _ => False end) by (destruct x; auto; left; split; auto; exact I).
    destruct Y as [Y|Y]; [|right; now apply scan_not_finite]. destruct (scan_finite prec x (c :: r) Y) as [N|(z & Sz)]; [apply ends_char; tauto|now right|left; split; eauto]. }
  destruct Fx as [(Fx & z & Sz)|Fx].
  - inversion Ex as [? ? Q|? ? Q]; subst; [contradiction|]. destruct W as [(-> & -> & Nl)|(_ & ->)]; [|inversion Q].
    unfold get_num. rewrite Sz. rewrite get_char_hd by reflexivity. destruct l as [|y l]; [congruence|]. cbn [length]. rewrite Ascii.eqb_refl. cbn [length] in IH. rewrite IH; auto. discriminate.
  - unfold get_num. rewrite Fx. cbn [get_char]. destruct (Ascii.eqb next _); [now rewrite Fl|reflexivity].
Qed.
(** An infinite coordinate, or one that is not a number, is written as a text that is not read. *)
Theorem C69_not_finite : forall prec dim p sp rest, blank sp -> length (el p) = dim -> Forall is_double (el p) -> ~ Forall finite_double (el p) ->
  read_point scan_double bad dim (Some (sp ++ write_point (print_double prec) p ++ rest)) = ParseError.
Proof.
  intros prec dim p sp rest B L D N. unfold read_point, read_coords, write_point, write_coords. cbn [app]. rewrite (expect_ok "("%char None sp _ B eq_refl). cbn [iobind]. rewrite <- L, read_not_finite; auto.
  - discriminate.
  - apply neg_Forall_Exists_neg in N; auto. intros x. destruct x as [s|s| |s m e]; [left|right|right|destruct (bool_dec (valid_binary prec64 emax64 (S754_finite s m e)) true) as [V|V]; [left|right]].
    + split; [reflexivity|exact I].
    + intros [_ []].
    + intros [_ []].
    + split; [exact V|exact I].
    + intros [V' _]. exact (V V').
Qed.
End Objects.

(** With the default precision of 6 a coordinate may change, and with 16 digits too: (0.1234567, -0.1) comes back as
    (0.123457, -0.1), and 0.1 + 0.2 as 0.3. *)
Definition d01234567 : spec_float := S754_finite false 8895992769862258 (-56).
Definition dm01 : spec_float := S754_finite true 7205759403792794 (-56).
Definition d03up : spec_float := S754_finite false 5404319552844596 (-54).
Lemma witness_double : is_double d01234567 /\ is_double dm01 /\ is_double d03up.
Proof. repeat split. Qed.
Lemma finite_witness s m e : is_double (S754_finite s m e) -> finite_double (S754_finite s m e).
Proof. intros D. split; [exact D|exact I]. Qed.
Theorem C69_default_precision_refuted : forall bad, exists p q, finite_point 2 p /\ Forall plain_size (el p) /\
  write_point (print_double 6) p = txt "(0.123457,-0.1)" /\ read_point scan_double bad 2 (Some (write_point (print_double 6) p)) = Got q (Some []) /\ q <> p.
Proof.
  intros bad. exists (mkC [d01234567; dm01] true), (mkC [S754_finite false 8896014387140469 (-56); dm01] true).
  assert (F : Forall finite_double [d01234567; dm01]) by (constructor; [|constructor; [|constructor]]; apply finite_witness; reflexivity).
  split; [split; [reflexivity|split; [exact F|reflexivity]]|]. split.
  - assert (V : forall s m, (1 <= m < 2 ^ 56)%Z -> bpow radix2 (-1021) <= Rabs (real (S754_finite s (Z.to_pos m) (-56))) <= bpow radix2 1022).
    { intros s m [M1 M2]. assert (E : Rabs (real (S754_finite s (Z.to_pos m) (-56))) = IZR m * bpow radix2 (-56)).
      { unfold real, SF2R. rewrite <- Float_prop.F2R_Zabs, abs_cond_Zopp. unfold F2R. cbn [Fnum Fexp]. f_equal. f_equal. rewrite Z2Pos.id; lia. }
      rewrite E. apply IZR_le in M1. apply IZR_lt in M2. change (2 ^ 56)%Z with (Zpower radix2 56) in M2. rewrite IZR_Zpower in M2 by lia. pose proof (bpow_gt_0 radix2 (-56)) as B. split.
      - apply Rle_trans with (1 * bpow radix2 (-56)); [rewrite Rmult_1_l; apply bpow_le; lia|]. apply Rmult_le_compat_r; lra.
      - apply Rle_trans with (bpow radix2 56 * bpow radix2 (-56)); [apply Rmult_le_compat_r; lra|]. rewrite <- bpow_plus. apply bpow_le. lia. }
    inversion F as [|? ? F1 F']; subst. inversion F' as [|? ? F2 _]; subst. constructor; [|constructor; [|constructor]].
    + split; [exact F1|right; exact (V false 8895992769862258%Z ltac:(lia))].
    + split; [exact F2|right; exact (V true 7205759403792794%Z ltac:(lia))].
  - split; [vm_compute; reflexivity|]. split; [vm_compute; reflexivity|]. discriminate.
Qed.
Theorem C69_sixteen_digits_refuted : exists x z, finite_double x /\ print_double 16 x = txt "0.3" /\ print_double 17 x = txt "0.30000000000000004" /\ scan_double (print_double 16 x) = Some (z, []) /\ z <> x.
Proof.
  exists d03up, (S754_finite false 5404319552844595 (-54)). split; [apply finite_witness; reflexivity|]. split; [vm_compute; reflexivity|]. split; [vm_compute; reflexivity|]. split; [vm_compute; reflexivity|discriminate].
Qed.

(** ** Matrices and quaternions: setVals and the division by the length get the entries that were written *)
Theorem C69_matrix_exact : forall m n fuel prec tol (M old : rotmatrix spec_float) rest, (17 <= prec)%nat -> (1 <= n)%nat -> length (me M) = n ->
  Forall (fun r => length r = n /\ Forall finite_double r) (me M) ->
  read_matrix (H := B64 m) scan_double fuel n tol old (Some (write_matrix (print_double prec) M ++ rest)) =
  match set_vals (H := B64 m) n fuel old (me M) (float_max (H := B64 m) (neps (Num := B64 m)) (get_epsilon (H := B64 m) tol)) with
  | None => NoFuel | Some (true, M') => Got M' (Some rest) | Some (false, _) => ParseError end.
Proof.
  intros m n fuel prec tol M old rest P N L F. unfold read_matrix, write_matrix. cbn [app].
  rewrite (expect_ok "("%char None [] _ blank_nil eq_refl : expect "("%char None (Some ("("%char :: _)) = _). cbn [iobind].
  pose proof (read_rows_ok _ (print_double prec) scan_double (n0 (H := B64 m)) _ (C69_number_exact prec P) n (me M) "("%char rest F) as R. rewrite L in R. rewrite R. reflexivity.
Qed.
Theorem C69_quaternion_exact : forall m prec (q old : quat spec_float) rest, (17 <= prec)%nat -> finite_double (qw q) -> finite_point 3 (qv q) ->
  let norm := nsqrt (Num := B64 m) (nadd (Num := B64 m) (nmul (Num := B64 m) (qw q) (qw q)) (sqr_mag (H := B64 m) 3 (qv q))) in
  read_quat (H := B64 m) scan_double old (Some (write_quat (print_double prec) q ++ rest)) =
  Got (mkQ (ndiv (Num := B64 m) (qw q) norm) (vec_div (H := B64 m) 3 (qv q) norm) true (qage old)) (Some rest).
Proof.
  intros m prec q old rest P Ow Ov norm. pose proof (C69_number_exact prec P) as E. unfold read_quat, write_quat. rewrite <- !app_assoc.
  change (skip_to_s "(" None (Some (txt "Quaternion: (" ++ ?t))) with (Got tt (Some t)). cbn [iobind app]. rewrite <- app_assoc. cbn [app].
  pose proof (get_num_ok _ (print_double prec) scan_double (n0 (H := B64 m)) _ E [] (qw q) (","%char :: write_point (print_double prec) (qv q) ++ ")"%char :: rest) blank_nil Ow (ends_char _ _ (or_introl eq_refl))) as G. cbn [app] in G. rewrite G.
  rewrite (expect_ok ","%char (Some "("%char) [] _ blank_nil eq_refl : expect ","%char (Some "("%char) (Some (","%char :: _)) = _). cbn [iobind].
  rewrite (read_point_0 _ (print_double prec) scan_double (n0 (H := B64 m)) _ E) by exact Ov. cbn [iobind].
  rewrite (expect_ok ")"%char (Some ","%char) [] _ blank_nil eq_refl : expect ")"%char (Some ","%char) (Some (")"%char :: _)) = _). cbn [iobind]. reflexivity.
Qed.

(** ** Cases *)
Example C69_print_example : print_double 6 (S754_finite true 1 (-1074)) = txt "-4.94066e-324" /\ print_double 17 dm01 = txt "-0.10000000000000001" /\ print_double 6 (S754_finite false 4503599627370496 (-12)) = txt "1.09951e+12" /\
  print_double 6 (S754_zero true) = txt "-0" /\ scan_double (txt " -1.5e+2,") = Some (S754_finite true 5277655813324800 (-45), txt ",").
Proof. repeat split. Qed.
Example C69_objects_example : exists b, finite_point 2 (low b) /\ plain_point 2 (high b) /\ write_box (print_double 17) b = txt "AxisBox: m_low = (-0.10000000000000001,0), m_high = (0.30000000000000004,-0)".
Proof.
  exists (mkB (mkC [dm01; S754_zero false] true) (mkC [d03up; S754_zero true] true)). split; [split; [reflexivity|split; [|reflexivity]]|split; [|vm_compute; reflexivity]].
  - constructor; [apply finite_witness; reflexivity|]. constructor; [split; [reflexivity|exact I]|constructor].
  - split; [reflexivity|]. split; [|reflexivity]. constructor; [|constructor; [|constructor]].
    + split; [apply finite_witness; reflexivity|]. right. assert (E : Rabs (real d03up) = IZR 5404319552844596 * bpow radix2 (-54)) by (unfold real, SF2R, F2R; cbn [Fnum Fexp d03up cond_Zopp]; apply Rabs_pos_eq; apply Rmult_le_pos; [lra|apply bpow_ge_0]).
      rewrite E. pose proof (bpow_gt_0 radix2 (-54)) as B. split.
      * apply Rle_trans with (1 * bpow radix2 (-54)); [rewrite Rmult_1_l; apply bpow_le; lia|apply Rmult_le_compat_r; lra].
      * apply Rle_trans with (bpow radix2 54 * bpow radix2 (-54)); [apply Rmult_le_compat_r; [lra|]|rewrite <- bpow_plus; apply bpow_le; lia]. rewrite <- IZR_Zpower by lia. apply IZR_le. vm_compute. discriminate.
    + split; [split; [reflexivity|exact I]|]. left. reflexivity.
Qed.
Example C69_not_finite_example : exists p, length (el p) = 2%nat /\ Forall is_double (el p) /\ ~ Forall finite_double (el p) /\ write_point (print_double 17) p = txt "(1,inf)".
Proof.
  exists (mkC [S754_finite false 4503599627370496 (-52); S754_infinity false] true). split; [reflexivity|]. split; [repeat constructor|]. split; [|vm_compute; reflexivity].
  intros F. inversion F as [|? ? _ F']; subst. inversion F' as [|? ? Q _]; subst. destruct Q as [_ []].
Qed.
Example C69_scan_example : decimal [1; 5]%Z (2 - 1) <> 0 /\ nearest (decimal [1; 5]%Z (2 - 1)) < bpow radix2 1024.
Proof.
  assert (E : decimal [1; 5]%Z (2 - 1) = 150) by (unfold decimal; change (2 - 1)%Z with 1%Z; rewrite powerRZ_1; cbn [fold_left]; change (10 * (10 * 0 + 1) + 5)%Z with 15%Z; lra). rewrite E. split; [lra|]. change (rnd 150 < bpow radix2 1024). eapply Rle_lt_trans; [apply Rle_abs|]. apply rnd_big. unfold big. rewrite Rabs_pos_eq by lra.
  apply Rle_trans with (bpow radix2 8); [unfold bpow; change (Z.pow_pos radix2 8) with 256%Z; lra|apply bpow_le; lia].
Qed.
