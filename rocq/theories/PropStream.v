(** C51: text written by operator<< is read back by operator>>. *)
From Coq Require Import ZArith NArith Bool Ascii String List Lia Reals Lra Psatz.
From Flocq Require Import Core.Zaux Core.Raux.
From Verif Require Import Base Scalar ConstModel VecModel RotModel QuatModel ShapeModel PolyModel RSpec VecSpec RotSpec QuatSpec ShapeSpec MotionSpec PolySpec RLib MatLib VecProofs VecProofs2 VecProofs3 RotProofs RotProofs4 ShapeProofs BallProofs SphereProofs MotionProofs MotionProofs2 PolyProofs PropPoly StreamModel StreamSpec StreamProofs StreamProofs2.
Import ListNotations.
Local Open Scope char_scope.
Local Open Scope list_scope.

(** ** Objects made of coordinates: any number type, any dimension, any text after the object *)
Section Any.
Variable T : Type.
Variable print : T -> text.
Variable scan : text -> option (T * text).
Variable bad : T.
Variable ok : T -> Prop.

(** A list of coordinates comes back, after any white space; what follows is left in the stream. *)
Theorem C51_coords : prints_exactly print scan ok -> forall l sp rest, blank sp -> Forall ok l ->
  read_coords scan bad (length l) (Some (sp ++ write_coords print l ++ rest)) = Got l (Some rest).
Proof. intros E l sp rest. exact (read_coords_ok T print scan bad ok E l sp rest). Qed.
(** ReadCoordList accepts exactly the texts "( x1 , ... , xn )", leaving what follows, and throws ParseError on
    every other text that is not blank. *)
Theorem C51_coords_accepts : forall num t, (num > 0)%nat ->
  (forall l s, read_coords scan bad num (Some t) = Got l s <-> exists rest, s = Some rest /\ length l = num /\ coords_text scan t l rest) /\
  (~ blank t -> (forall l rest, length l = num -> ~ coords_text scan t l rest) -> read_coords scan bad num (Some t) = ParseError).
Proof.
  intros num t P. split; [intros l s; now apply read_coords_iff|]. intros B N. destruct (read_coords_cases T scan bad num t) as [(l & s & E)|[E|[_ E]]]; auto; [|contradiction].
  exfalso. apply read_coords_iff in E as (rest & _ & L & W); auto. exact (N l rest L W).
Qed.
(** Vector and Point *)
Theorem C51_point : prints_exactly print scan ok -> forall dim p sp rest, blank sp -> ok_point ok dim p ->
  read_point scan bad dim (Some (sp ++ write_point print p ++ rest)) = Got p (Some rest).
Proof. intros E. exact (read_point_ok T print scan bad ok E). Qed.
Theorem C51_box : prints_exactly print scan ok -> forall dim b rest, ok_point ok dim (low b) -> ok_point ok dim (high b) ->
  read_box scan bad dim (Some (write_box print b ++ rest)) = Got b (Some rest).
Proof. intros E. exact (read_box_ok T print scan bad ok E). Qed.
Theorem C51_segment : prints_exactly print scan ok -> forall dim g rest, ok_point ok dim (end1 g) -> ok_point ok dim (end2 g) ->
  read_segment scan bad dim (Some (write_segment print g ++ rest)) = Got g (Some rest).
Proof. intros E. exact (read_segment_ok T print scan bad ok E). Qed.
Theorem C51_ball : prints_exactly print scan ok -> forall dim b rest, ok_point ok dim (center b) -> ok (radius b) -> ends rest ->
  read_ball scan bad dim (Some (write_ball print b ++ rest)) = Got b (Some rest).
Proof. intros E. exact (read_ball_ok T print scan bad ok E). Qed.
(** Polygon<2>, with any number of corners *)
Theorem C51_polygon_plane : prints_exactly print scan ok -> forall l rest fuel, Forall (ok_point ok 2) l -> (length l <= fuel)%nat ->
  read_pg2 scan bad fuel (Some (write_pg2 print l ++ rest)) = Got l (Some rest).
Proof. intros E. exact (read_pg2_ok T print scan bad ok E). Qed.

(** Reading an object with labels from a text without '=' never ends; from an empty one it tests a variable
    that was never set. *)
Theorem C51_malformed_refuted : forall dim,
  read_box scan bad dim (Some (txt "AxisBox")) = Forever /\ read_box scan bad dim (Some []) = Uninit /\
  read_ball scan bad dim (Some (txt "Ball")) = Forever /\ read_segment scan bad dim (Some (txt "Segment")) = Forever /\
  (forall fuel, read_pg2 scan bad fuel (Some (txt "Polygon")) = Forever).
Proof. intros dim. repeat split. Qed.
(** A list of rows that ends too early reads on with a variable that was never set. *)
Theorem C51_truncated_refuted : prints_exactly print scan ok -> forall r, length r = 3%nat -> Forall ok r ->
  read_rows scan bad 3 3 "(" (Some (write_coords print r ++ "," :: write_coords print r)) = Uninit.
Proof.
  intros E r L O. assert (C : forall rest, read_coords scan bad 3 (Some (write_coords print r ++ rest)) = Got r (Some rest)).
  { intros rest. rewrite <- L. exact (read_coords_ok T print scan bad ok E r [] rest blank_nil O). }
  change (read_rows scan bad 3 3 "(" ?z) with (iobind (read_coords scan bad 3 z) (fun row s =>
      match get_char (Some "(") s with
      | (Some c, s) => if Ascii.eqb c "," then iobind (read_rows scan bad 3 2 c s) (fun l s => Got (row :: l) s) else ParseError
      | (None, _) => Uninit end)).
  rewrite C. cbn [iobind]. rewrite get_char_hd by reflexivity. rewrite Ascii.eqb_refl.
  change (read_rows scan bad 3 2 "," ?z) with (iobind (read_coords scan bad 3 z) (fun row s =>
      match get_char (Some ",") s with
      | (Some c, s) => if Ascii.eqb c "," then iobind (read_rows scan bad 3 1 c s) (fun l s => Got (row :: l) s) else ParseError
      | (None, _) => Uninit end)).
  specialize (C []). rewrite app_nil_r in C. rewrite C. reflexivity.
Qed.
End Any.

(** ** Rotations *)
Open Scope R_scope.
Lemma tenth_le (eps : Epsilon) k : (1 <= k)%nat -> 0 <= tenth_power k <= 1 / 10.
Proof.
  induction k as [|k IH]; intros K; [lia|]. cbn [tenth_power]. cbn [ndiv nofZ Rnum]. destruct k as [|k].
  - cbn [tenth_power]. unfold n1. cbn [nofZ Rnum]. lra.
  - specialize (IH ltac:(lia)). lra.
Qed.
Lemma nine_tenths_half : 1 / 2 < nine_tenths (T := R) (H := Rnum 0).
Proof.
  unfold nine_tenths. cbn [nldexp nofZ Rnum]. change (bpow radix2 (-53)) with (/ IZR (2 ^ 53)). change (2 ^ 53)%Z with 9007199254740992%Z.
  apply Rmult_lt_reg_r with 9007199254740992; [lra|]. replace (8106479329266893 * / 9007199254740992 * 9007199254740992) with 8106479329266893 by (field; lra). lra.
Qed.
Lemma stream_eps (eps : Epsilon) p : 0 <= (eps : R) <= 1 / 2 -> (2 <= p)%nat -> Rabs (float_max (neps : R) (get_epsilon p)) < nine_tenths (T := R) (H := Rnum eps).
Proof.
  intros He Hp. pose proof (tenth_le eps (p - 1) ltac:(lia)) as T. change (@nine_tenths R (Rnum eps)) with (@nine_tenths R (Rnum 0)). pose proof nine_tenths_half.
  unfold float_max, get_epsilon. change (neps : R) with (eps : R). destruct (nltb _ _); rewrite Rabs_pos_eq; lra.
Qed.
Lemma rows_ok n (m : mat R) (ok : R -> Prop) : mdims n m -> Forall (Forall ok) m -> Forall (fun r => length r = n /\ Forall ok r) m.
Proof.
  intros [L D] F. apply Forall_forall. intros r I. split; [|rewrite Forall_forall in F; now apply F].
  destruct (In_nth m r [] I) as (k & K & <-). apply D. lia.
Qed.

(** An orthogonal matrix comes back with the same elements, whatever matrix it is read into. *)
Theorem C51_matrix : forall (eps : Epsilon) n (m old : rotmatrix R) print scan ok fuel p rest, 0 <= (eps : R) <= 1 / 2 -> (2 <= p)%nat ->
  prints_exactly print scan ok -> mdims n (me m) -> orthogonal n (ent m) -> Forall (Forall ok) (me m) ->
  exists m', read_matrix scan (S fuel) n p old (Some (write_matrix print m ++ rest)) = Got m' (Some rest) /\ me m' = me m /\ mvalid m' = true.
Proof.
  intros eps n m old print scan ok fuel p rest He Hp E D Or O. unfold read_matrix, write_matrix. cbn [app].
  rewrite (expect_ok "(" None [] _ blank_nil eq_refl : expect "(" None (Some ("(" :: _)) = _). cbn [iobind].
  pose proof (rows_ok n (me m) ok D O) as Rw. pose proof (read_rows_ok R print scan n0 ok E n (me m) "(" rest Rw) as Rd. rewrite (proj1 D) in Rd. rewrite Rd. cbn [iobind].
  destruct (set_vals_exact eps n fuel old (me m) (float_max neps (get_epsilon p)) (proj1 He) D Or (stream_eps eps p He Hp)) as (m' & Sv & M). rewrite Sv.
  exists m'. split; auto. split; auto. pose proof (set_vals_sound eps n (S fuel) old (me m) _ true m' Sv) as X. cbn iota in X. tauto.
Qed.
Theorem C51_rotbox : forall (eps : Epsilon) n (r old : rotbox R) print scan ok fuel p rest, 0 <= (eps : R) <= 1 / 2 -> (2 <= p)%nat ->
  prints_exactly print scan ok -> ok_point ok n (corner0 r) -> ok_point ok n (rsize r) -> mdims n (me (orient r)) -> orthogonal n (ent (orient r)) -> Forall (Forall ok) (me (orient r)) ->
  exists r', read_rotbox scan (S fuel) n p old (Some (write_rotbox print r ++ rest)) = Got r' (Some rest) /\
    corner0 r' = corner0 r /\ rsize r' = rsize r /\ me (orient r') = me (orient r) /\ mvalid (orient r') = true.
Proof.
  intros eps n r old print scan ok fuel p rest He Hp E C Sz D Or O. unfold read_rotbox, write_rotbox. rewrite <- !app_assoc.
  change (skip_to_s "=" None (Some (txt "RotBox: m_corner0 = " ++ ?t))) with (Got tt (Some ([" "] ++ t))). cbn [iobind].
  rewrite (read_point_ok R print scan n0 ok E) by auto using blank_1. cbn [iobind].
  change (skip_to_s "=" (Some "=") (Some (txt ", m_size = " ++ ?t))) with (Got tt (Some ([" "] ++ t))). cbn [iobind].
  rewrite (read_point_ok R print scan n0 ok E) by auto using blank_1. cbn [iobind].
  change (skip_to_s "=" (Some "=") (Some (txt ", m_orient = " ++ ?t))) with (Got tt (Some (" " :: t))). cbn [iobind].
  destruct (C51_matrix eps n (orient r) (orient old) print scan ok fuel p rest He Hp E D Or O) as (m' & M & Me & Mv).
  assert (Sp : forall t, read_matrix scan (S fuel) n p (orient old) (Some (" " :: t)) = read_matrix scan (S fuel) n p (orient old) (Some t)) by reflexivity.
  rewrite Sp, M. cbn [iobind]. eexists. split; [reflexivity|]. auto.
Qed.
(** A quaternion comes back divided by its length, a unit quaternion as it was; the age is that of the object
    read into. *)
Theorem C51_quaternion : forall (eps : Epsilon) (q old : quat R) print scan ok rest, prints_exactly print scan ok -> ok (qw q) -> ok_point ok 3 (qv q) ->
  exists q', read_quat scan old (Some (write_quat print q ++ rest)) = Got q' (Some rest) /\ qvalid q' = true /\ qage q' = qage old /\
    (let N := sqrt (qw q * qw q + norm2 3 (co (qv q))) in qw q' = qw q / N /\ (forall i, (i < 3)%nat -> co (qv q') i = co (qv q) i / N)) /\
    (qw q * qw q + norm2 3 (co (qv q)) = 1 -> qw q' = qw q /\ qv q' = qv q).
Proof.
  intros eps q old print scan ok rest E Ow Ov. unfold read_quat, write_quat. rewrite <- !app_assoc.
  change (skip_to_s "(" None (Some (txt "Quaternion: (" ++ ?t))) with (Got tt (Some t)). cbn [iobind app].
  rewrite <- app_assoc. cbn [app].
  pose proof (get_num_ok R print scan n0 ok E [] (qw q) ("," :: write_point print (qv q) ++ ")" :: rest) blank_nil Ow (ends_char "," _ (or_introl eq_refl))) as G. cbn [app] in G. rewrite G.
  rewrite (expect_ok "," (Some "(") [] _ blank_nil eq_refl : expect "," (Some "(") (Some ("," :: _)) = _). cbn [iobind].
  rewrite (read_point_0 R print scan n0 ok E) by auto. cbn [iobind].
  rewrite (expect_ok ")" (Some ",") [] _ blank_nil eq_refl : expect ")" (Some ",") (Some (")" :: _)) = _). cbn [iobind].
  eexists. split; [reflexivity|]. cbn [qvalid qage qw qv]. split; auto. split; auto. rewrite sqr_mag_norm2. cbn [nsqrt nadd nmul ndiv Rnum]. split.
  - split; [reflexivity|]. intros i Hi. now rewrite (div_co eps).
  - intros U. rewrite U, sqrt_1. split; [field|]. destruct Ov as (L & _ & V). destruct (qv q) as [l v]. cbn in L, V. subst v. unfold vec_div. cbn [valid]. f_equal.
    destruct l as [|a [|b [|c [|d l]]]]; try discriminate. cbn. repeat f_equal; field.
Qed.

(** ** Polygon<dim> and Line *)
(** The reader of Polygon<dim>, in exact arithmetic, on a well-formed list of corners: every corner comes back,
    up to the tolerance of the stream relative to the distance to one of the corners (so that a triangle always
    can be read); a list of more than three may be rejected.  Missing: the writer produces such a list only for
    dim corners, see below. *)
Theorem C51_polygon_space_partial : forall n print scan ok (l : list (coords R)) (old : polygon R) fuel p rest, prints_exactly print scan ok -> (2 <= p)%nat ->
  Forall (ok_point ok n) l -> l <> [] -> (length l <= fuel)%nat ->
  let e := @get_epsilon R (Rnum 0) p in
  match read_pg (H := Rnum 0) scan n fuel p old (Some (txt "Polygon: (" ++ write_corners print l ++ rest)) with
  | Got q s => s = Some rest /\ pg_ok n q /\ pg_num q = length l /\
      exists j, (j < length l)%nat /\ forall k x, nth_error l k = Some x -> exists c, pg_corner (H := Rnum 0) n q k = Ret c /\ valid c = true /\
        dist2 n (co c) (co x) <= e * dist2 n (co x) (co (nth j l (@coords_default R (Rnum 0) n)))
  | ParseError => (length l > 3)%nat
  | _ => False
  end.
Proof.
  intros n print scan ok l old fuel p rest E Hp O Ne F. cbv zeta. unfold read_pg. rewrite start_polygon. cbn [iobind].
  rewrite (read_corners_ok R print scan n0 ok E n) by auto. cbn [iobind]. pose proof (tenth_le 0 (p - 1) ltac:(lia)) as T. fold (@get_epsilon R (Rnum 0) p) in T.
  assert (M : @float_max R (Rnum 0) (@get_epsilon R (Rnum 0) p) (@neps R (Rnum 0)) = @get_epsilon R (Rnum 0) p).
  { unfold float_max. cbn [nltb neps Rnum]. unfold epsilon. destruct (Rlt_bool_spec 0 (@get_epsilon R (Rnum 0) p)); [reflexivity|]. lra. }
  rewrite M. pose proof (build_spec n (@get_epsilon R (Rnum 0) p) (proj1 T) l (Some rest) Ne) as B. exact B.
Qed.
(** With exactly dim corners what is written is such a list. *)
Theorem C51_polygon_space_text_partial : forall T (N : Num T) n print (q : polygon T) t, write_pg print n q = Ret t -> pg_num q = n -> (n > 0)%nat ->
  exists l, length l = n /\ (forall k c, nth_error l k = Some c -> pg_corner n q k = Ret c) /\ t = txt "Polygon: (" ++ write_corners print l.
Proof.
  intros T N n print q t W L P. apply write_pg_inv in W as (l & Ll & Lc & ->); [|intros Q; unfold pg_num in L; rewrite Q in L; cbn in L; lia].
  exists l. split; [congruence|]. split; auto. rewrite corners_text_end; auto; [rewrite Nat.add_0_l; congruence|]. intros ->. cbn in Ll. lia.
Qed.
(** With any other number of corners the text does not come back: with more, the result has dim corners or there
    is none; with fewer, the reader goes on past the end of the text. *)
Theorem C51_polygon_space_refuted : forall T (N : Num T) n print scan ok (q old : polygon T) t fuel p, prints_exactly print scan ok ->
  write_pg print n q = Ret t -> (forall k c, pg_corner n q k = Ret c -> ok_point ok n c) -> (pg_num q < fuel)%nat -> (n > 0)%nat ->
  ((n < pg_num q)%nat -> forall q' s, read_pg scan n fuel p old (Some t) = Got q' s -> pg_num q' = n) /\
  ((0 < pg_num q < n)%nat -> read_pg scan n fuel p old (Some t) = Uninit).
Proof.
  intros T N n print scan ok q old t fuel p E W O F P.
  assert (X : pcorners q <> [] -> exists l, length l = pg_num q /\ Forall (ok_point ok n) l /\ t = txt "Polygon: (" ++ write_corners_d print n 0 l).
  { intros Ne. apply write_pg_inv in W as (l & Ll & Lc & ->); auto. exists l. split; auto. split; auto. apply Forall_forall. intros c I. apply In_nth_error in I as (k & K). eapply O. eauto. }
  split.
  - intros L. destruct X as (l & Ll & Ol & ->); [intros Q; unfold pg_num in L; rewrite Q in L; cbn in L; lia|]. intros q' s. unfold read_pg. rewrite start_polygon. cbn [iobind].
    destruct (read_long print scan ok E n l 0 "(" fuel [] P ltac:(lia) Ol ltac:(lia)) as (s2 & R). rewrite app_nil_r in R. rewrite R. cbn [iobind]. intros B. apply build_num in B. rewrite B, firstn_length. lia.
  - intros L. destruct X as (l & Ll & Ol & ->); [intros Q; unfold pg_num in L; rewrite Q in L; cbn in L; lia|]. unfold read_pg. rewrite start_polygon. cbn [iobind].
    rewrite (read_short print scan ok E n l 0 "(" fuel) by (auto; lia). reflexivity.
Qed.
(** The text of an empty polygon leaves the object it is read into as it was. *)
Theorem C51_polygon_empty_refuted : forall T (N : Num T) n print scan (old : polygon T) fuel p rest,
  exists t, write_pg print n (pg_default n) = Ret t /\ read_pg scan n fuel p old (Some (t ++ rest)) = Got old (Some rest).
Proof. intros. exists (txt "<empty>"). split; reflexivity. Qed.
(** Line: the separators are those of a list of dim corners only (and there is no operator>>). *)
Theorem C51_line_refuted : forall T (N : Num T) n (print : T -> text) (l : corners T), l <> [] -> (n > 0)%nat ->
  (length l = n -> write_line print n l = txt "Line: (" ++ write_corners print l) /\
  (length l <> n -> write_line print n l <> txt "Line: (" ++ write_corners print l).
Proof.
  intros T N n print l Ne P. assert (W : write_line print n l = txt "Line: (" ++ write_corners_d print n 0 l) by (destruct l; [congruence|reflexivity]). rewrite W. split.
  - intros L. rewrite corners_text_end; auto.
  - intros L Q. apply app_inv_head in Q. revert Q. apply corners_text_ne; auto.
Qed.

(** ** Numbers that print exactly: 0 and 1 *)
Definition print01 (x : R) : text := if Req_EM_T x 0 then ["0"] else ["1"].
Definition scan01 (t : text) : option (R * text) :=
  match skip_space t with
  | "0" :: r => Some (0, r)
  | "1" :: r => Some (1, r)
  | _ => None
  end.
Definition ok01 (x : R) : Prop := x = 0 \/ x = 1.
Example C51_numbers_example : prints_exactly print01 scan01 ok01.
Proof.
  intros x O pre rest B _. unfold scan01. rewrite skip_blank by auto. unfold print01. destruct (Req_EM_T x 0) as [->|N]; [reflexivity|].
  replace x with 1 by (destruct O; lra). reflexivity.
Qed.
Example C51_example : forall (eps : Epsilon), 0 <= (eps : R) <= 1 / 2 ->
  let r := mkRB (mkC [1; 0] true) (mkC [1; 1] true) (mkM [[0; 1]; [1; 0]] true true 1) in
  ok_point ok01 2 (corner0 r) /\ ok_point ok01 2 (rsize r) /\ mdims 2 (me (orient r)) /\ orthogonal 2 (ent (orient r)) /\ Forall (Forall ok01) (me (orient r)) /\
  write_rotbox print01 r = txt "RotBox: m_corner0 = (1,0), m_size = (1,1), m_orient = ((0,1),(1,0))".
Proof.
  intros eps He. cbn [corner0 rsize orient me]. unfold ok_point, ok01. cbn [el valid]. split; [|split; [|split; [|split; [|split]]]].
  - repeat split; repeat constructor; lra.
  - repeat split; repeat constructor; lra.
  - split; [reflexivity|]. intros [|[|i]] Hi; try reflexivity; lia.
  - intros i j Hi Hj. unfold mmul, mtr, ent, rc, mget, delta. destruct i as [|[|i]]; destruct j as [|[|j]]; try lia; cbn; lra.
  - repeat constructor; lra.
  - assert (P0 : print01 0 = ["0"]) by (unfold print01; destruct (Req_EM_T 0 0); [reflexivity|lra]). assert (P1 : print01 1 = ["1"]) by (unfold print01; destruct (Req_EM_T 1 0); [lra|reflexivity]).
    unfold write_rotbox, write_matrix, write_point, write_coords. cbn [el corner0 rsize orient me write_list write_rows write_coords]. unfold write_coords. cbn [write_list]. rewrite P0, P1. reflexivity.
Qed.
(** A polygon with four corners, built with addCorner, whose text cannot be read back. *)
Example C51_polygon_example : forall (eps : Epsilon), 0 < (eps : R) <= 1 / 8 -> exists p1 p2 p3 p4 t,
  pg_add 3 (pg_default 3) 0 og eps = Ret (true, p1) /\ pg_add 3 p1 1 (v3 1 0 0) eps = Ret (true, p2) /\ pg_add 3 p2 2 (v3 0 1 0) eps = Ret (true, p3) /\
  pg_add 3 p3 3 og eps = Ret (true, p4) /\ write_pg print01 3 p4 = Ret t /\ (forall k c, pg_corner 3 p4 k = Ret c -> ok_point ok01 3 c) /\ (3 < pg_num p4)%nat.
Proof.
  intros eps He. set (i3 := @coords_default R (Rnum eps) 3).
  exists (mkP (mkO og i3 i3) [pt2 0 0 true]), (mkP (mkO og (v3 1 0 0) i3) [pt2 0 0 true; pt2 1 0 true]),
    (mkP (mkO og (v3 1 0 0) (v3 0 1 0)) [pt2 0 0 true; pt2 1 0 true; pt2 0 1 true]), (mkP (mkO og (v3 1 0 0) (v3 0 1 0)) [pt2 0 0 true; pt2 1 0 true; pt2 0 1 true; pt2 0 0 true]).
  assert (W : exists t, write_pg print01 3 (mkP (mkO og (v3 1 0 0) (v3 0 1 0)) [pt2 0 0 true; pt2 1 0 true; pt2 0 1 true; pt2 0 0 true]) = Ret t) by (eexists; reflexivity).
  destruct W as (t & W). exists t. split; [|split; [|split; [|split; [|split; [|split]]]]].
  - unfold pg_add. change (pplane (pg_default 3)) with (@orient_default R (Rnum eps) 3). rewrite (expand_0 eps). reflexivity.
  - unfold pg_add. cbn [pplane]. rewrite (expand_1 eps He) by reflexivity. reflexivity.
  - unfold pg_add. cbn [pplane]. rewrite (expand_3 eps He i3 0) by (auto; left; reflexivity). reflexivity.
  - unfold pg_add. cbn [pplane]. unfold orient_expand. cbn [porigin pax0 pax1]. change (valid og) with true. cbn [negb]. unfold og. rewrite sub_v3.
    rewrite (dot_v3 eps _ _ _ _ _ _ 0); try (rewrite Rabs_pos_eq; lra); [|exact He|ring|left; lra]. rewrite sqr_mag_v3. cbn [nmul nleb Rnum]. rewrite Rle_bool_true by lra. reflexivity.
  - exact W.
  - assert (K : forall a b, (a = 0 /\ b = 0) \/ (a = 1 /\ b = 0) \/ (a = 0 /\ b = 1) -> forall c, @orient_convert R (Rnum eps) 3 (mkO og (v3 1 0 0) (v3 0 1 0)) (pt2 a b true) = Ret c -> ok_point ok01 3 c).
    { intros a b AB c Q. cbn in Q. injection Q as <-. split; [reflexivity|]. split; [|reflexivity]. unfold ok01. cbn. repeat (apply Forall_cons; [destruct AB as [[-> ->]|[[-> ->]|[-> ->]]]; lra|]). apply Forall_nil. }
    intros k c. unfold pg_corner, poly_corner, oget. cbn [pcorners pplane]. destruct k as [|[|[|[|k]]]]; cbn [nth_error obind].
    + apply K. auto.
    + apply K. auto.
    + apply K. auto.
    + apply K. auto.
    + destruct k; discriminate.
  - cbn. lia.
Qed.
Print Assumptions C51_coords.
Print Assumptions C51_coords_accepts.
Print Assumptions C51_point.
Print Assumptions C51_box.
Print Assumptions C51_segment.
Print Assumptions C51_ball.
Print Assumptions C51_polygon_plane.
Print Assumptions C51_malformed_refuted.
Print Assumptions C51_truncated_refuted.
Print Assumptions C51_matrix.
Print Assumptions C51_rotbox.
Print Assumptions C51_quaternion.
Print Assumptions C51_polygon_space_partial.
Print Assumptions C51_polygon_space_text_partial.
Print Assumptions C51_polygon_space_refuted.
Print Assumptions C51_polygon_empty_refuted.
Print Assumptions C51_line_refuted.
