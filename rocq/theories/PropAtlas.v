(** C52: objects sent as Atlas messages come back, and what happens to other messages. *)
From Coq Require Import ZArith NArith Bool String List Lia Reals Lra Psatz SpecFloat.
From Flocq Require Import Core.Raux.
From Verif Require Import Base Scalar VecModel RotModel QuatModel ShapeModel PolyModel RSpec VecSpec RotSpec ShapeSpec RLib VecProofs ShapeProofs PolyProofs AtlasModel AtlasSpec AtlasProofs.
Import ListNotations.

(** ** Vector, Point: any number type, any dimension *)
Theorem C52_point : forall T (N : Num T) dim (p : point T), ok_coords dim p -> point_from dim (point_to p) = Ret p.
Proof. intros T N. exact point_round. Qed.
(** Any other message is rejected: the call returns exactly for a list of dim numbers, the object is valid if
    they are all finite, and it throws otherwise. *)
Theorem C52_point_accepts : forall T (N : Num T) dim (a : element T),
  (forall p, point_from dim a = Ret p <-> number_list a (el p) /\ length (el p) = dim /\ valid p = forallb finite (el p)) /\
  ((forall xs, length xs = dim -> ~ number_list a xs) -> point_from dim a = Throws).
Proof.
  intros T N dim a. split; [intros p; apply point_from_iff|]. intros Q. pose proof (point_from_safe dim a) as S. destruct (point_from dim a) as [p| | |] eqn:E; try contradiction; auto.
  apply point_from_iff in E as (A & B & _). exfalso. exact (Q _ B A).
Qed.

(** ** No message makes a conversion read out of bounds or stop at an assertion. *)
Theorem C52_safe : forall T (N : Num T) dim (a : element T), safe (point_from dim a) /\ (forall q, safe (quat_from q a)) /\ (forall b, safe (box_from dim b a)) /\
  (forall b, safe (ball_from dim b a)) /\ (forall l, safe (polygon_from l a)) /\ (forall l, safe (line_from dim l a)) /\ safe (rotbox_from dim a).
Proof.
  intros T N dim a. split; [apply point_from_safe|]. split; [|split; [|split; [|split; [|split]]]].
  - intros q. unfold quat_from. destruct a as [| |l| |]; try exact I. destruct (Nat.eqb_spec (length l) 4) as [L|]; [|exact I]. cbn [negb]. apply safe_bind; [apply nums_spec; lia|]. intros v V. destruct (forallb finite v); [|exact I]. cbn [negb].
    unfold oget. destruct (nth_error l 3) as [e|] eqn:E; [|apply nth_error_None in E; lia]. cbn [obind]. apply safe_bind; [apply as_num_safe|]. intros w W. destruct (finite w); [|exact I]. cbn [negb]. destruct (_ <=? _)%num; exact I.
  - intros b. unfold box_from. destruct a as [| |l| |]; try exact I. destruct (Nat.eqb_spec (length l) dim) as [L|]; [apply safe_bind; [apply point_from_safe|intros; exact I]|]. destruct (Nat.eqb_spec (length l) (2 * dim)) as [L|]; [|exact I].
    apply safe_bind; [apply box_loop_safe; [lia|]|intros [[|] r] _; exact I]. apply Forall_forall. intros i Hi. apply in_seq in Hi. lia.
  - intros b. unfold ball_from. destruct a as [| | |m|]; try exact I. destruct (map_find m "radius") as [e|].
    + destruct (is_num e) eqn:Ne.
      * apply safe_bind; [apply as_num_safe|]. intros r _. destruct (true && negb (finite r)); [exact I|]. destruct (map_find m "position") as [[| |l| |]|]; try exact I. apply safe_bind; [apply point_from_safe|]. intros; exact I.
      * cbn [obind andb]. destruct (map_find m "position") as [[| |l| |]|]; try exact I. apply safe_bind; [apply point_from_safe|]. intros; exact I.
    + cbn [obind]. destruct (map_find m "position") as [[| |l| |]|]; try exact I. apply safe_bind; [apply point_from_safe|]. intros; exact I.
  - intros l. pose proof (shape_from_spec 2 2 l a) as S. unfold polygon_from. destruct (shape_from 2 2 l a); try contradiction; exact I.
  - intros l. pose proof (shape_from_spec dim 0 l a) as S. unfold line_from. destruct (shape_from dim 0 l a); try contradiction; exact I.
  - unfold rotbox_from. destruct a as [| | |m|]; try exact I. destruct (map_find m "point") as [e|]; [|exact I]. apply safe_bind; [apply point_from_safe|]. intros p _. destruct (map_find m "size") as [e2|]; [|exact I]. apply safe_bind; [apply point_from_safe|]. intros; exact I.
Qed.

(** ** Ball *)
Theorem C52_ball : forall T (N : Num T) dim (b old : ball T), ok_coords dim (center b) -> finite (radius b) = true -> ball_from dim old (ball_to b) = Ret b.
Proof.
  intros T N dim b old C R. unfold ball_from, ball_to. cbn [map_find find option_map fst snd String.eqb Ascii.eqb Bool.eqb is_num as_num obind andb]. rewrite R. cbn [negb].
  change (map_find _ "position") with (Some (point_to (center b))). unfold point_to at 1, array_to at 1. change (EList (map EFloat (el (center b)))) with (point_to (center b)).
  rewrite point_round by auto. cbn [obind]. now destruct b.
Qed.
(** A message that is not a map leaves the ball as it was: the constructor then makes a valid ball of radius 0,
    without an error. *)
Theorem C52_ball_malformed_refuted : forall T (N : Num T) dim (a : element T), (forall m, a <> EMap m) ->
  (forall old, ball_from dim old a = Ret old) /\ exists b, ball_make dim a = Ret b /\ valid (center b) = true /\ radius b = n0.
Proof. intros T N dim a Q. split; [intros old; destruct a; try reflexivity; exfalso; eapply Q; reflexivity|]. exists (mkBall (vec_zero dim) n0). split; [|auto]. unfold ball_make. destruct a; try reflexivity; exfalso; eapply Q; reflexivity. Qed.

(** ** Polygon<2> and Line *)
(** fromAtlas appends the corners that the message has, in their order, and throws if there are too few; what is
    not a corner is passed over. *)
Theorem C52_polygon_accepts : forall T (N : Num T) (old : corners T) (a : element T),
  match polygon_from old a with
  | Ret s => exists l ps, points_of a l /\ corners_in 2 l ps /\ s = old ++ ps /\ (2 < length s)%nat
  | Throws => forall l ps, points_of a l -> corners_in 2 l ps -> (length (old ++ ps) <= 2)%nat
  | _ => False
  end.
Proof. intros T N old a. exact (shape_from_spec 2 2 old a). Qed.
Theorem C52_line_accepts : forall T (N : Num T) dim (old : corners T) (a : element T),
  match line_from dim old a with
  | Ret s => exists l ps, points_of a l /\ corners_in dim l ps /\ s = old ++ ps /\ (0 < length s)%nat
  | Throws => forall l ps, points_of a l -> corners_in dim l ps -> (length (old ++ ps) <= 0)%nat
  | _ => False
  end.
Proof. intros T N dim old a. exact (shape_from_spec dim 0 old a). Qed.
(** So what was sent comes back behind the corners that were there before; missing for the full property: the
    object read into is not cleared, and polygons of less than three corners are not accepted. *)
Theorem C52_polygon_partial : forall T (N : Num T) (l old : corners T), Forall (ok_coords 2) l ->
  polygon_from old (shape_to l) = if Nat.ltb 2 (length (old ++ l)) then Ret (old ++ l) else Throws.
Proof.
  intros T N l old F. pose proof (shape_from_spec 2 2 old (shape_to l)) as S. unfold polygon_from. assert (P : points_of (shape_to l) (map point_to l)).
  { right. exists [], []. split; [reflexivity|]. intros k e []. }
  pose proof (corners_in_to 2 l F) as C. destruct (shape_from 2 2 old (shape_to l)) as [s| | |]; try contradiction.
  - destruct S as (l' & ps & P' & C' & -> & L). assert (l' = map point_to l) as ->.
    { destruct P' as [E|(m1 & m2 & E & Nx)]; [discriminate|]. unfold shape_to in E. injection E as E. destruct m1 as [|[k e] m1]; [cbn in E; injection E as E _; auto|]. cbn in E. injection E as <- _ E. destruct m1; discriminate. }
    rewrite (corners_in_unique 2 _ ps C' l C) in *. now rewrite (proj2 (Nat.ltb_lt _ _) L).
  - specialize (S _ _ P C). now rewrite (proj2 (Nat.ltb_ge _ _) S).
Qed.
Theorem C52_line_partial : forall T (N : Num T) dim (l old : corners T), Forall (ok_coords dim) l ->
  line_from dim old (shape_to l) = if Nat.ltb 0 (length (old ++ l)) then Ret (old ++ l) else Throws.
Proof.
  intros T N dim l old F. pose proof (shape_from_spec dim 0 old (shape_to l)) as S. unfold line_from. assert (P : points_of (shape_to l) (map point_to l)).
  { right. exists [], []. split; [reflexivity|]. intros k e []. }
  pose proof (corners_in_to dim l F) as C. destruct (shape_from dim 0 old (shape_to l)) as [s| | |]; try contradiction.
  - destruct S as (l' & ps & P' & C' & -> & L). assert (l' = map point_to l) as ->.
    { destruct P' as [E|(m1 & m2 & E & Nx)]; [discriminate|]. unfold shape_to in E. injection E as E. destruct m1 as [|[k e] m1]; [cbn in E; injection E as E _; auto|]. cbn in E. injection E as <- _ E. destruct m1; discriminate. }
    rewrite (corners_in_unique dim _ ps C' l C) in *. now rewrite (proj2 (Nat.ltb_lt _ _) L).
  - specialize (S _ _ P C). now rewrite (proj2 (Nat.ltb_ge _ _) S).
Qed.
(** Reading a polygon into one that has corners does not give the polygon sent; a valid polygon or line can be
    refused. *)
Theorem C52_polygon_refuted : forall T (N : Num T) (l old : corners T), Forall (ok_coords 2) l ->
  (old <> [] -> polygon_from old (shape_to l) <> Ret l) /\ ((length l <= 2)%nat -> polygon_from [] (shape_to l) = Throws).
Proof.
  intros T N l old F. rewrite !C52_polygon_partial by auto. split.
  - intros Ne Q. destruct (Nat.ltb _ _); [|discriminate]. injection Q as Q. apply (f_equal (@length _)) in Q. rewrite app_length in Q. destruct old; [congruence|cbn in Q; lia].
  - intros L. cbn [app]. now rewrite (proj2 (Nat.ltb_ge 2 (length l)) L).
Qed.
Theorem C52_line_refuted : forall T (N : Num T) dim (l old : corners T), Forall (ok_coords dim) l ->
  (old <> [] -> line_from dim old (shape_to l) <> Ret l) /\ line_from dim [] (shape_to []) = Throws.
Proof.
  intros T N dim l old F. split; [|reflexivity]. rewrite C52_line_partial by auto.
  intros Ne Q. destruct (Nat.ltb _ _); [|discriminate]. injection Q as Q. apply (f_equal (@length _)) in Q. rewrite app_length in Q. destruct old; [congruence|cbn in Q; lia].
Qed.

(** ** RotBox: the corner and the size come back, the orientation becomes the identity. *)
Theorem C52_rotbox_partial : forall T (N : Num T) dim (r : rotbox T), ok_coords dim (corner0 r) -> ok_coords dim (rsize r) ->
  rotbox_from dim (rotbox_to r) = Ret (mkRB (corner0 r) (rsize r) (rot_identity dim)).
Proof.
  intros T N dim r C Z. unfold rotbox_from, rotbox_to. change (map_find _ "point") with (Some (point_to (corner0 r))). cbv beta iota. rewrite point_round by auto. cbn [obind].
  change (map_find _ "size") with (Some (point_to (rsize r))). cbv beta iota. rewrite point_round by auto. reflexivity.
Qed.
Theorem C52_rotbox_refuted : forall T (N : Num T) dim (r : rotbox T), ok_coords dim (corner0 r) -> ok_coords dim (rsize r) -> me (orient r) <> me (rot_identity dim) ->
  exists r', rotbox_from dim (rotbox_to r) = Ret r' /\ me (orient r') <> me (orient r).
Proof. intros T N dim r C Z Q. rewrite C52_rotbox_partial by auto. eexists. split; [reflexivity|]. cbn [orient]. congruence. Qed.

(** ** AxisBox *)
(** A message makes a valid box only if it is a list of dim or 2 dim finite numbers. *)
Theorem C52_box_accepts : forall T (N : Num T) dim (old b : axisbox T) (a : element T), length (el (low old)) = dim -> length (el (high old)) = dim ->
  box_from dim old a = Ret b -> valid (low b) = true -> valid (high b) = true ->
  exists xs, number_list a xs /\ (length xs = dim \/ length xs = 2 * dim)%nat /\ forall x, In x xs -> finite x = true.
Proof.
  intros T N dim old b a Lo Hi E V1 V2. unfold box_from in E. destruct a as [| |l| |]; try discriminate. destruct (Nat.eqb_spec (length l) dim) as [L|L].
  - destruct (point_from dim (EList l)) as [h| | |] eqn:P; cbn [obind] in E; try discriminate. injection E as <-. cbn in V2. apply point_from_iff in P as (A & B & C). exists (el h). split; auto. split; auto. rewrite V2 in C. symmetry in C. rewrite forallb_forall in C. exact C.
  - destruct (Nat.eqb_spec (length l) (2 * dim)) as [L2|]; [|discriminate]. destruct (box_loop dim l (seq 0 dim) old) as [[[|] b']| | |] eqn:Lp; cbn [obind fst snd] in E; try discriminate.
    + clear E. apply box_loop_spec in Lp as (A1 & A2 & A3 & A4 & A5 & _); auto.
      2:{ apply Forall_forall. intros i I. apply in_seq in I. lia. } 2: apply seq_NoDup.
      assert (Ix : forall i, (i < dim)%nat -> In i (seq 0 dim)) by (intros i I; apply in_seq; lia).
      exists (el (low b') ++ el (high b')). split; [|split].
      * exists l. split; auto. assert (K : forall k e x, nth_error l k = Some e -> nth_error (el (low b') ++ el (high b')) k = Some x -> number e x).
        { intros k e x Ke Kx. destruct (Nat.lt_ge_cases k dim) as [Hk|Hk].
          - destruct (A5 k (Ix k Hk)) as (e1 & e2 & E1 & E2 & N1 & N2 & _). rewrite nth_error_app1 in Kx by lia. apply nth_error_nth with (d := n0) in Kx. unfold at_, get in N1. rewrite Kx in N1. congruence.
          - assert (k < length l)%nat by (apply nth_error_Some; congruence). destruct (A5 (k - dim)%nat (Ix (k - dim)%nat ltac:(lia))) as (e1 & e2 & E1 & E2 & N1 & N2 & _). rewrite nth_error_app2 in Kx by lia. rewrite A1 in Kx. apply nth_error_nth with (d := n0) in Kx. unfold at_, get in N2. rewrite Kx in N2.
            replace (k - dim + dim)%nat with k in E2 by lia. congruence. }
        assert (Ln : length l = length (el (low b') ++ el (high b'))) by (rewrite app_length; lia). clear - K Ln. revert Ln K. generalize (el (low b') ++ el (high b')). induction l as [|e l IH]; intros [|x xs] Ln K; try discriminate; constructor.
        -- apply (K 0%nat); reflexivity.
        -- apply IH; [cbn in Ln; lia|]. intros k. apply (K (S k)).
      * right. rewrite app_length. lia.
      * intros x X. apply in_app_iff in X as [X|X]; apply In_nth with (d := n0) in X as (k & Hk & <-).
        -- destruct (A5 k (Ix k ltac:(lia))) as (e1 & e2 & _ & _ & _ & _ & F & _). exact F.
        -- destruct (A5 k (Ix k ltac:(lia))) as (e1 & e2 & _ & _ & _ & _ & _ & F). exact F.
    + apply box_loop_false in Lp. injection E as <-. destruct Lp; congruence.
Qed.
(** Boxes with ordered corners come back; coordinates are real numbers. *)
Open Scope R_scope.
Lemma finite_R (eps : Epsilon) x : finite (H := Rnum eps) x = true.
Proof. unfold finite. cbn [nsub neqb Rnum]. apply Req_bool_true. unfold n0. cbn [nofZ Rnum]. ring. Qed.
Lemma tab_el (eps : Epsilon) n (p : coords R) : length (el p) = n -> tab n (fun i => at_ p i) = el p.
Proof. intros L. unfold tab, at_, get. rewrite <- L. apply nth_ext with (d := n0) (d' := n0); [rewrite map_length, seq_length; auto|]. intros k K. rewrite map_length, seq_length in K. rewrite nth_indep with (d' := nth 0 (el p) n0) by now rewrite map_length, seq_length. rewrite (map_nth (fun i => nth i (el p) n0)), seq_nth by auto. reflexivity. Qed.
Lemma tab_ext_ (n : nat) (f g : nat -> R) : (forall i, (i < n)%nat -> f i = g i) -> tab n f = tab n g.
Proof. intros E. unfold tab. apply map_ext_in. intros i I. apply in_seq in I. apply E. lia. Qed.
Theorem C52_box : forall (eps : Epsilon) dim (b old : axisbox R), (dim > 0)%nat -> length (el (low old)) = dim -> length (el (high old)) = dim ->
  ok_coords dim (low b) -> ok_coords dim (high b) -> (forall i, (i < dim)%nat -> co (low b) i <= co (high b) i) -> box_from dim old (box_to dim b) = Ret b.
Proof.
  intros eps dim b old P Lo Hi (L1 & V1 & _) (L2 & V2 & _) O.
  assert (Srt : forall b', length (el (low b')) = dim -> length (el (high b')) = dim -> valid (low b') = true -> valid (high b') = true -> (forall i, (i < dim)%nat -> at_ (low b') i = at_ (low b) i /\ at_ (high b') i = at_ (high b) i) -> box_sort dim b' = b).
  { intros b' A1 A2 A3 A4 A5. unfold box_sort. rewrite A3, A4.
    assert (G : forall i, (i < dim)%nat -> nltb (at_ (high b') i) (at_ (low b') i) = false).
    { intros i Hi'. destruct (A5 i Hi') as [-> ->]. cbn [nltb Rnum]. rewrite !at_co. apply Rlt_bool_false, O; auto. }
    destruct b as [[l v] [h w]]. cbn [low high el valid] in *. subst v w. f_equal; f_equal.
    - etransitivity; [|apply (tab_el eps dim (mkC l true) L1)]. apply tab_ext_. intros i Hi'. rewrite G by auto. apply (A5 i Hi').
    - etransitivity; [|apply (tab_el eps dim (mkC h true) L2)]. apply tab_ext_. intros i Hi'. rewrite G by auto. apply (A5 i Hi'). }
  unfold box_to. destruct (all_below dim (fun i => neqb (at_ (low b) i) n0)) eqn:Z.
  - unfold box_from, point_to, array_to. rewrite map_length, L2, Nat.eqb_refl. change (EList (map EFloat (el (high b)))) with (point_to (high b)). rewrite point_round; [|split; auto; split; auto; intros x _; apply finite_R]. cbn [obind]. f_equal.
    apply Srt; auto; [cbn; unfold tab; now rewrite map_length, seq_length|]. intros i Hi'. split; [|reflexivity]. cbn [low]. rewrite at_co. unfold vec_zero. unfold co. cbn [el]. fold (co (vec_zero dim)).
    rewrite all_below_iff in Z. specialize (Z i Hi'). cbn [neqb Rnum] in Z. apply Reqb_iff in Z. rewrite Z. rewrite nth_tab by auto. reflexivity.
  - unfold box_from. rewrite !tab_el by auto. rewrite app_length, !map_length, L1, L2. destruct (Nat.eqb_spec (dim + dim) dim); [lia|]. rewrite (proj2 (Nat.eqb_eq (dim + dim) (2 * dim))) by lia.
    assert (Fi : Forall (fun i => (i < dim)%nat) (seq 0 dim)) by (apply Forall_forall; intros i I; apply in_seq in I; lia).
    destruct (box_loop_ok dim (el (low b)) (el (high b)) L1 L2 (fun x _ => finite_R eps x) (seq 0 dim) old Fi) as (b' & E). rewrite E. cbn [obind fst snd]. f_equal.
    apply box_loop_spec in E as (A1 & A2 & A3 & A4 & A5 & _); auto; [|rewrite app_length, !map_length; lia|apply seq_NoDup].
    apply Srt; auto. intros i Hi'. destruct (A5 i) as (e1 & e2 & E1 & E2 & N1 & N2 & _); [apply in_seq; lia|].
    rewrite nth_error_app1, nth_error_map in E1 by (rewrite map_length; lia). rewrite nth_error_app2, nth_error_map, map_length in E2 by (rewrite map_length; lia). replace (i + dim - length (el (low b)))%nat with i in E2 by lia.
    destruct (nth_error (el (low b)) i) as [x|] eqn:X; [|discriminate]. destruct (nth_error (el (high b)) i) as [y|] eqn:Y; [|discriminate]. cbn in E1, E2. injection E1 as <-. injection E2 as <-.
    apply nth_error_nth with (d := n0) in X, Y. split; [transitivity x; [eapply number_unique; [exact N1|now left]|]|transitivity y; [eapply number_unique; [exact N2|now left]|]]; unfold at_, get; auto.
Qed.

(** ** Quaternion: divided by its length; a unit quaternion comes back. *)
Theorem C52_quaternion : forall (eps : Epsilon) (q old : quat R), ok_coords 3 (qv q) -> eps < sqrt (qw q * qw q + norm2 3 (co (qv q))) ->
  exists q', quat_from old (quat_to q) = Ret q' /\ qvalid q' = true /\ qage q' = 1%N /\ valid (qv q') = true /\
    (let N := sqrt (qw q * qw q + norm2 3 (co (qv q))) in qw q' = qw q / N /\ forall i, (i < 3)%nat -> co (qv q') i = co (qv q) i / N) /\
    (qw q * qw q + norm2 3 (co (qv q)) = 1 -> qw q' = qw q /\ qv q' = qv q).
Proof.
  intros eps q old (L & V & _) Q. unfold quat_from, quat_to. rewrite map_length. cbn [length Nat.eqb negb].
  assert (E : nums (map EFloat [at_ (qv q) 0; at_ (qv q) 1; at_ (qv q) 2; qw q]) 0 3 = Ret (el (qv q))).
  { destruct (qv q) as [[|a [|b [|c [|d l]]]] v]; try discriminate. reflexivity. }
  rewrite E. cbn [obind]. rewrite (proj2 (forallb_forall _ _)) by (intros; apply finite_R). cbn [negb]. change (oget (map EFloat [at_ (qv q) 0; at_ (qv q) 1; at_ (qv q) 2; qw q]) 3) with (Ret (EFloat (qw q))). cbn [obind as_num]. rewrite finite_R. cbn [negb].
  rewrite sqr_mag_norm2. change (co (mkC (el (qv q)) (valid (qv old)))) with (co (qv q)). cbn [nsqrt nadd nmul nleb neps Rnum]. rewrite Rle_bool_false by exact Q.
  eexists. split; [reflexivity|]. cbn [qvalid qage qv qw valid ndiv Rnum]. split; auto. split; auto. split; auto. split.
  - split; [reflexivity|]. intros i Hi. change (co (mkC ?e true)) with (co (mkC e true)). change (co (mkC (el (vec_div 3 (mkC (el (qv q)) (valid (qv old))) (sqrt (qw q * qw q + norm2 3 (co (qv q)))))) true) i) with (co (vec_div 3 (mkC (el (qv q)) (valid (qv old))) (sqrt (qw q * qw q + norm2 3 (co (qv q))))) i).
    rewrite (div_co eps) by auto. reflexivity.
  - intros U. rewrite U, sqrt_1. split; [field|]. destruct (qv q) as [l v]. cbn in L, V. subst v. f_equal. destruct l as [|a [|b [|c [|d l]]]]; try discriminate. cbn. repeat f_equal; field.
Qed.

(** ** In doubles, finite is what std::isfinite is: messages with infinities or NaN give invalid objects. *)
Theorem C52_finite : forall (m : libm) x, finite (H := B64 m) x = match x with S754_zero _ | S754_finite _ _ _ => true | _ => false end.
Proof.
  intros m x. unfold finite. cbn [nsub neqb B64]. destruct x as [s|s| |s p e].
  - destruct s; reflexivity.
  - destruct s; reflexivity.
  - reflexivity.
  - unfold SFsub. rewrite Z.min_id. unfold SpecFloat.shl_align. rewrite Z.sub_diag. cbn iota.
    replace (cond_Zopp s (Z.pos (fst (p, e))) - cond_Zopp s (Z.pos (fst (p, e))))%Z with 0%Z by lia. reflexivity.
Qed.

Example C52_example : forall (eps : Epsilon), let b := mkB (mkC [0; 1; -2] true) (mkC [1; 1; 5] true) in
  ok_coords (H := Rnum eps) 3 (low b) /\ ok_coords (H := Rnum eps) 3 (high b) /\ (forall i, (i < 3)%nat -> co (low b) i <= co (high b) i) /\
  polygon_from (H := Rnum eps) [] (EList [EList [EInt 1; EFloat 2; EOther]; EOther; EList [EFloat 0; EFloat 0]; EList [EFloat 1]; EList [EFloat 1; EFloat 0]]) = Ret [mkC [1; 2] true; mkC [0; 0] true; mkC [1; 0] true].
Proof.
  intros eps. cbn [low high]. unfold ok_coords, all_finite. cbn [el valid]. split; [|split; [|split]].
  - repeat split. intros x _. apply finite_R.
  - repeat split. intros x _. apply finite_R.
  - intros [|[|[|i]]] Hi; try lia; unfold co; cbn; lra.
  - unfold polygon_from, shape_from. cbn [corners_from Nat.ltb Nat.leb length list_num_check oget nth_error obind is_num]. unfold add_corner. cbn [nums oget nth_error obind as_num forallb].
    rewrite !finite_R. cbn [andb negb]. reflexivity.
Qed.
Print Assumptions C52_point.
Print Assumptions C52_point_accepts.
Print Assumptions C52_safe.
Print Assumptions C52_ball.
Print Assumptions C52_ball_malformed_refuted.
Print Assumptions C52_polygon_accepts.
Print Assumptions C52_line_accepts.
Print Assumptions C52_polygon_partial.
Print Assumptions C52_line_partial.
Print Assumptions C52_polygon_refuted.
Print Assumptions C52_line_refuted.
Print Assumptions C52_rotbox_partial.
Print Assumptions C52_rotbox_refuted.
Print Assumptions C52_box_accepts.
Print Assumptions C52_box.
Print Assumptions C52_quaternion.
Print Assumptions C52_finite.
