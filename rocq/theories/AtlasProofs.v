(** Lemmas for Atlas messages. *)
From Coq Require Import ZArith NArith Bool String List Lia.
From Verif Require Import Base Scalar VecModel RotModel QuatModel ShapeModel PolyModel AtlasModel AtlasSpec PolySpec PolyProofs.
Import ListNotations.

Lemma f2_length {A B} (P : A -> B -> Prop) l l' : Forall2 P l l' -> length l = length l'.
Proof. induction 1; cbn; auto. Qed.
Section Any.
Context {T} `{Num T}.

Lemma as_num_iff (e : element T) x : as_num e = Ret x <-> number e x.
Proof.
  unfold number. destruct e; cbn; split; try discriminate; try (intros [Q|(z' & Q & _)]; discriminate).
  - intros Q. injection Q as ->. auto.
  - intros [Q|(z & Q & _)]; [injection Q as ->; auto|discriminate].
  - intros Q. injection Q as <-. eauto.
  - intros [Q|(z' & Q & ->)]; [discriminate|]. injection Q as ->. auto.
Qed.
Lemma as_num_safe (e : element T) : safe (as_num e). Proof. now destruct e. Qed.
Lemma is_num_iff (e : element T) : is_num e = true <-> exists x, as_num e = Ret x.
Proof. destruct e; cbn; split; try discriminate; eauto; intros (x & Q); discriminate. Qed.
Lemma skipn_nth {A} (l : list A) i a : nth_error l i = Some a -> skipn i l = a :: skipn (S i) l.
Proof. revert i. induction l as [|x l IH]; intros [|i] E; try discriminate; [now injection E as ->|]. cbn in E. change (skipn (S i) (x :: l)) with (skipn i l). rewrite (IH i E). reflexivity. Qed.
Lemma nums_spec (l : list (element T)) : forall len i, (i + len <= length l)%nat ->
  (safe (nums l i len)) /\ forall xs, nums l i len = Ret xs <-> Forall2 number (firstn len (skipn i l)) xs.
Proof.
  induction len as [|k IH]; intros i L.
  - cbn. split; [exact I|]. intros xs. split; [intros Q; injection Q as <-; constructor|]. intros Q. now inversion Q.
  - cbn [nums]. unfold oget. destruct (nth_error l i) as [e|] eqn:E; [|apply nth_error_None in E; lia]. cbn [obind].
    rewrite (skipn_nth l i e E). cbn [firstn]. destruct (IH (S i) ltac:(lia)) as [Sf Iff]. destruct (as_num e) as [x| | |] eqn:X; cbn [obind].
    + split; [destruct (nums l (S i) k); cbn in *; auto|]. intros xs. split.
      * intros Q. destruct (nums l (S i) k) as [r| | |] eqn:R; cbn [obind] in Q; try discriminate. injection Q as <-. constructor; [now apply as_num_iff|]. now apply Iff.
      * intros Q. inversion Q as [|? y ? ys N F E1 E2]. subst. apply as_num_iff in N. rewrite X in N. injection N as ->. apply Iff in F. rewrite F. reflexivity.
    + pose proof (as_num_safe e) as Q. rewrite X in Q. contradiction.
    + pose proof (as_num_safe e) as Q. rewrite X in Q. contradiction.
    + split; [exact I|]. intros xs. split; [discriminate|]. intros Q. inversion Q as [|? y ? ys N F E1 E2]. apply as_num_iff in N. congruence.
Qed.
Lemma number_unique (e : element T) x y : number e x -> number e y -> x = y.
Proof. intros A B. apply as_num_iff in A, B. congruence. Qed.
Lemma floats (l : list T) : Forall2 number (map EFloat l) l.
Proof. induction l; constructor; auto. now left. Qed.
Lemma nums_floats (l : list T) r : nums (map EFloat l ++ r) 0 (length l) = Ret l.
Proof.
  apply nums_spec; [rewrite app_length, map_length; lia|]. rewrite skipn_O. rewrite firstn_app, map_length, Nat.sub_diag, firstn_O, app_nil_r, firstn_all2 by (rewrite map_length; lia). apply floats.
Qed.
Lemma array_from_iff len (a : element T) xs : array_from len a = Ret xs <-> number_list a xs /\ length xs = len.
Proof.
  unfold array_from, number_list. destruct a as [x|z|l|m|]; try (split; [discriminate|intros [(l & Q & _) _]; discriminate]).
  destruct (Nat.eqb_spec (length l) len) as [L|L].
  - destruct (nums_spec l len 0 ltac:(lia)) as [_ Q]. rewrite Q, skipn_O, firstn_all2 by lia. split.
    + intros F. split; [eauto|]. apply f2_length in F. lia.
    + intros [(l' & E & F) _]. injection E as <-. exact F.
  - split; [discriminate|]. intros [(l' & E & F) L2]. injection E as <-. apply f2_length in F. lia.
Qed.
Lemma array_from_safe len (a : element T) : safe (array_from len a).
Proof. unfold array_from. destruct a; try exact I. destruct (Nat.eqb_spec (length l) len) as [L|L]; [|exact I]. apply nums_spec. lia. Qed.
Lemma safe_bind {A B} (x : outcome A) (f : A -> outcome B) : safe x -> (forall a, x = Ret a -> safe (f a)) -> safe (obind x f).
Proof. destruct x; cbn; auto; contradiction. Qed.
Lemma point_from_safe dim (a : element T) : safe (point_from dim a).
Proof. apply safe_bind; [apply array_from_safe|]. intros; exact I. Qed.
Lemma point_from_iff dim (a : element T) p : point_from dim a = Ret p <-> number_list a (el p) /\ length (el p) = dim /\ valid p = forallb finite (el p).
Proof.
  unfold point_from. split.
  - intros E. destruct (array_from dim a) as [l| | |] eqn:A; cbn [obind] in E; try discriminate. injection E as <-. apply array_from_iff in A as [A B]. auto.
  - intros (A & B & C). rewrite (proj2 (array_from_iff dim a (el p)) (conj A B)). cbn [obind]. rewrite <- C. now destruct p.
Qed.
Lemma all_finite_iff (p : point T) : all_finite p <-> forallb finite (el p) = true.
Proof. unfold all_finite. rewrite forallb_forall. reflexivity. Qed.
Lemma point_round dim (p : point T) : ok_coords dim p -> point_from dim (point_to p) = Ret p.
Proof. intros (L & V & F). apply point_from_iff. split; [exists (map EFloat (el p)); split; [reflexivity|apply floats]|]. split; auto. rewrite V. symmetry. now apply all_finite_iff. Qed.

(** ** Corners *)
Lemma check_spec (l : list (element T)) : forall k i, (i + k <= length l)%nat ->
  exists b, list_num_check l i k = Ret b /\ (b = true <-> exists xs, nums l i k = Ret xs).
Proof.
  induction k as [|k IH]; intros i L; cbn [list_num_check nums].
  - exists true. split; auto. split; eauto.
  - unfold oget. destruct (nth_error l i) as [e|] eqn:E; [|apply nth_error_None in E; lia]. cbn [obind]. destruct (is_num e) eqn:N.
    + destruct (IH (S i) ltac:(lia)) as (b & B & Q). exists b. split; auto. rewrite Q. apply is_num_iff in N as (x & X). rewrite X. cbn [obind]. split; intros (xs & R).
      * rewrite R. cbn. eauto.
      * destruct (nums l (S i) k); try discriminate. eauto.
    + exists false. split; auto. split; [discriminate|]. intros (xs & R). destruct (as_num e) as [x| | |] eqn:X; try discriminate. assert (is_num e = true) by (apply is_num_iff; eauto). congruence.
Qed.
Lemma insert_end {A} (l : list A) x : list_insert l (length l) x = Ret (l ++ [x]).
Proof.
  destruct (insert_spec l (length l) x (le_n _)) as (l' & E & L & I). rewrite E. f_equal. apply nth_ext_error. intros k. rewrite I.
  destruct (Nat.ltb_spec k (length l)) as [K|K]; [now rewrite nth_error_app1 by auto|]. rewrite nth_error_app2 by lia. destruct (Nat.eqb_spec k (length l)) as [->|N]; [now rewrite Nat.sub_diag|].
  destruct (k - length l)%nat as [|j] eqn:J; [lia|]. cbn. rewrite (proj2 (nth_error_None l (k - 1))) by lia. now destruct j.
Qed.
Lemma corner_iff dim (l : list (element T)) p : corner dim (EList l) p <-> (dim <= length l)%nat /\ nums l 0 dim = Ret (el p) /\ forallb finite (el p) = true /\ valid p = true.
Proof.
  unfold corner. split.
  - intros (V & L & F & l1 & r & E & N). injection E as ->. pose proof (f2_length _ _ _ N) as Ln. assert (D : (dim <= length (l1 ++ r))%nat) by (rewrite app_length; lia). split; auto. split; auto.
    apply (proj2 (nums_spec (l1 ++ r) dim 0 D)). rewrite skipn_O, firstn_app. replace (dim - length l1)%nat with 0%nat by lia. rewrite firstn_O, app_nil_r, firstn_all2 by lia. exact N.
  - intros (D & N & F & V). apply (proj2 (nums_spec l dim 0 D)) in N. rewrite skipn_O in N. split; auto. pose proof (f2_length _ _ _ N) as Ln. rewrite firstn_length_le in Ln by auto. split; auto. split; auto.
    exists (firstn dim l), (skipn dim l). split; [now rewrite firstn_skipn|auto].
Qed.
Lemma corners_from_spec dim : forall (l : list (element T)) shape, exists ps, corners_in dim l ps /\ corners_from dim shape l = Ret (shape ++ ps).
Proof.
  induction l as [|e l IH]; intros shape; [exists []; split; [constructor|cbn; now rewrite app_nil_r]|].
  assert (Skip : (forall p, ~ corner dim e p) -> corners_from dim shape (e :: l) = corners_from dim shape l -> exists ps, corners_in dim (e :: l) ps /\ corners_from dim shape (e :: l) = Ret (shape ++ ps)).
  { intros N E. destruct (IH shape) as (ps & C & R). exists ps. split; [now constructor|congruence]. }
  destruct e as [x|z|p|m|]; try (apply Skip; [intros q (_ & _ & _ & l1 & r & E & _); discriminate|reflexivity]).
  cbn [corners_from]. cbn [corners_from] in Skip. destruct (Nat.ltb_spec (length p) dim) as [S|S].
  - apply Skip; auto. intros q Q. apply corner_iff in Q as [Q _]. lia.
  - destruct (check_spec p dim 0 ltac:(lia)) as (b & B & Bi). unfold point in *. rewrite B in *. cbn [obind] in *. destruct b.
    + destruct (proj1 Bi eq_refl) as (xs & X). unfold add_corner in *. rewrite X in *. cbn [obind] in *. destruct (forallb finite xs) eqn:F; cbn [negb] in *.
      * unfold poly_add, point. rewrite insert_end. cbn [obind]. destruct (IH (shape ++ [mkC xs true])) as (ps & C & R). exists (mkC xs true :: ps). split.
        -- constructor; auto. apply corner_iff. auto.
        -- unfold point in *. rewrite R. now rewrite <- app_assoc.
      * apply Skip; auto. intros q Q. apply corner_iff in Q as (_ & Q & F' & _). congruence.
    + apply Skip; auto. intros q Q. apply corner_iff in Q as (_ & Q & _). assert (false = true) by (apply Bi; eauto). discriminate.
Qed.
Lemma corner_unique dim (e : element T) p q : corner dim e p -> corner dim e q -> p = q.
Proof.
  destruct e as [x|z|l|m|]; try (intros (_ & _ & _ & l1 & r & E & _); discriminate). intros A B. apply corner_iff in A as (_ & A1 & _ & A2). apply corner_iff in B as (_ & B1 & _ & B2). destruct p, q. cbn in *. congruence.
Qed.
Lemma corners_in_unique dim (l : list (element T)) ps : corners_in dim l ps -> forall qs, corners_in dim l qs -> ps = qs.
Proof.
  induction 1 as [|e p l ps C _ IH|e l ps C _ IH]; intros qs Q; inversion Q; subst; auto.
  - f_equal; [eapply corner_unique; eauto|auto].
  - exfalso. match goal with X : forall p, ~ _ |- _ => eapply X; eassumption end.
  - exfalso. eapply C; eauto.
Qed.
Lemma corners_in_to dim (ps : list (point T)) : Forall (ok_coords dim) ps -> corners_in dim (map point_to ps) ps.
Proof.
  induction 1 as [|p ps (L & V & F) _ IH]; cbn [map]; constructor; auto. split; auto. split; auto. split; [now apply all_finite_iff|]. exists (map EFloat (el p)), []. split; [now rewrite app_nil_r|]. apply floats.
Qed.
Lemma find_first (m1 m2 : list (string * element T)) k e : (forall k' e', In (k', e') m1 -> k' <> k) -> map_find (m1 ++ (k, e) :: m2) k = Some e.
Proof.
  unfold map_find. intros N. induction m1 as [|[k' e'] m1 IH]; cbn.
  - now rewrite String.eqb_refl.
  - destruct (String.eqb_spec k' k) as [->|]; [exfalso; eapply N; [now left|reflexivity]|]. apply IH. intros a b I. apply (N a b). now right.
Qed.
Lemma find_first_inv (m : list (string * element T)) k e : map_find m k = Some e -> exists m1 m2, m = m1 ++ (k, e) :: m2 /\ forall k' e', In (k', e') m1 -> k' <> k.
Proof.
  unfold map_find. induction m as [|[k' e'] m IH]; cbn; [discriminate|]. destruct (String.eqb_spec k' k) as [->|N].
  - intros Q. injection Q as <-. exists [], m. split; auto.
  - intros Q. destruct (IH Q) as (m1 & m2 & -> & K). exists ((k', e') :: m1), m2. split; auto. intros a b [Q'|I]; [injection Q' as <- <-; auto|eauto].
Qed.
Lemma shape_from_spec dim least (old : corners T) (a : element T) : 
  match shape_from dim least old a with
  | Ret s => exists l ps, points_of a l /\ corners_in dim l ps /\ s = old ++ ps /\ (least < length s)%nat
  | Throws => forall l ps, points_of a l -> corners_in dim l ps -> (length (old ++ ps) <= least)%nat
  | _ => False
  end.
Proof.
  assert (One : forall l l', points_of a l -> points_of a l' -> l = l').
  { intros l l' [->|(m1 & m2 & E & N)] [E'|(m1' & m2' & E' & N')]; try congruence. 
    - rewrite E in E'. injection E' as E'. apply find_first with (e := EList l) (m2 := m2) in N. apply find_first with (e := EList l') (m2 := m2') in N'. rewrite E' in N. congruence. }
  unfold shape_from. set (o := match a with EList l => Some l | EMap m => match map_find m "points" with Some (EList l) => Some l | _ => None end | _ => None end).
  assert (O : forall l, o = Some l <-> points_of a l).
  { intros l. unfold o, points_of. split.
    - destruct a as [| |l'|m|]; try discriminate; [intros Q; injection Q as ->; auto|]. destruct (map_find m "points") as [[| |l'| |]|] eqn:E; try discriminate. intros Q. injection Q as ->.
      right. apply find_first_inv in E as (m1 & m2 & -> & N). eauto 6.
    - intros [->|(m1 & m2 & -> & N)]; auto. now rewrite find_first. }
  destruct o as [l|].
  - pose proof (proj1 (O l) eq_refl) as Pl. destruct (corners_from_spec dim l old) as (ps & C & R). unfold point in *. rewrite R. cbn [obind]. destruct (Nat.ltb least _) eqn:L; [apply Nat.ltb_lt in L|apply Nat.ltb_ge in L].
    + exists l, ps. auto.
    + intros l' ps' P' C'. rewrite <- (One l l' Pl P') in C'. now rewrite <- (corners_in_unique dim l ps C ps' C').
  - intros l ps P _. apply O in P. discriminate.
Qed.

(** ** Boxes *)
Lemma box_loop_safe dim l : (2 * dim <= length l)%nat -> forall is b, Forall (fun i => (i < dim)%nat) is -> safe (box_loop dim l is b).
Proof.
  intros L. induction is as [|i is IH]; intros b F; [exact I|]. apply Forall_cons_iff in F as [Fi F]. cbn [box_loop]. unfold oget.
  destruct (nth_error l i) as [e|] eqn:E; [|apply nth_error_None in E; lia]. cbn [obind]. apply safe_bind; [apply as_num_safe|]. intros x X. destruct (finite x); cbn [negb]; [|exact I].
  destruct (nth_error l (i + dim)) as [e2|] eqn:E2; [|apply nth_error_None in E2; lia]. cbn [obind]. apply safe_bind; [apply as_num_safe|]. intros y Y. destruct (finite y); cbn [negb]; [|exact I]. now apply IH.
Qed.
Lemma upd_nth {A} (l : list A) i x k d : (i < length l)%nat -> nth k (upd l i x) d = if Nat.eqb k i then x else nth k l d.
Proof. revert i k. induction l as [|a l IH]; intros i k L; [cbn in L; lia|]. destruct i, k; cbn; auto. rewrite IH by (cbn in L; lia). reflexivity. Qed.
(** What the loop has done when it gets to the end. *)
Lemma box_loop_spec dim l : (length l = 2 * dim)%nat -> forall is b b', length (el (low b)) = dim -> length (el (high b)) = dim -> Forall (fun i => (i < dim)%nat) is -> NoDup is ->
  box_loop dim l is b = Ret (true, b') ->
  length (el (low b')) = dim /\ length (el (high b')) = dim /\ valid (low b') = true /\ valid (high b') = true /\
  (forall i, In i is -> exists e e', nth_error l i = Some e /\ nth_error l (i + dim) = Some e' /\ number e (at_ (low b') i) /\ number e' (at_ (high b') i) /\ finite (at_ (low b') i) = true /\ finite (at_ (high b') i) = true) /\
  (forall i, ~ In i is -> at_ (low b') i = at_ (low b) i /\ at_ (high b') i = at_ (high b) i).
Proof.
  intros L. induction is as [|i is IH]; intros b b' Lo Hi F Nd E; cbn [box_loop] in E.
  - injection E as <-. cbn [low high el valid]. repeat split; auto. intros i [].
  - apply Forall_cons_iff in F as [Fi F]. apply NoDup_cons_iff in Nd as [Ni Nd]. unfold oget in E.
    destruct (nth_error l i) as [e|] eqn:E1; [|discriminate]. cbn [obind] in E. destruct (as_num e) as [x| | |] eqn:X; cbn [obind] in E; try discriminate. destruct (finite x) eqn:Fx; cbn [negb] in E; [|discriminate].
    destruct (nth_error l (i + dim)) as [e2|] eqn:E2; [|discriminate]. cbn [obind] in E. destruct (as_num e2) as [y| | |] eqn:Y; cbn [obind] in E; try discriminate. destruct (finite y) eqn:Fy; cbn [negb] in E; [|discriminate].
    apply IH in E; auto; try (cbn [low high el]; rewrite upd_length; auto). destruct E as (A1 & A2 & A3 & A4 & A5 & A6). cbn [low high] in A6. split; [exact A1|]. split; [exact A2|]. split; [exact A3|]. split; [exact A4|]. split.
    + intros j [<-|J]; [|auto]. destruct (A6 i Ni) as [B1 B2]. exists e, e2. rewrite B1, B2. unfold at_. cbn [el]. unfold get. rewrite !upd_nth, Nat.eqb_refl by lia. split; auto. split; auto. split; [now apply as_num_iff|]. split; [now apply as_num_iff|]. auto.
    + intros j J. cbn [In] in J. destruct (A6 j) as [B1 B2]; [tauto|]. unfold at_ in *. cbn [el] in *. unfold get in *. rewrite B1, B2, !upd_nth by lia. destruct (Nat.eqb_spec j i); [subst; exfalso; tauto|auto].
Qed.
Lemma box_loop_false dim l : forall is b b', box_loop dim l is b = Ret (false, b') -> valid (low b') = false \/ valid (high b') = false.
Proof.
  induction is as [|i is IH]; intros b b' E; cbn [box_loop] in E; [discriminate|].
  destruct (oget l i) as [e| | |]; cbn [obind] in E; try discriminate. destruct (as_num e) as [x| | |]; cbn [obind] in E; try discriminate. destruct (finite x); cbn [negb] in E; [|injection E as <-; auto].
  destruct (oget l (i + dim)) as [e2| | |]; cbn [obind] in E; try discriminate. destruct (as_num e2) as [y| | |]; cbn [obind] in E; try discriminate. destruct (finite y); cbn [negb] in E; [|injection E as <-; auto]. eauto.
Qed.
(** and it gets there on two lists of finite numbers *)
Lemma box_loop_ok dim (lo hi : list T) : length lo = dim -> length hi = dim -> (forall x, In x lo \/ In x hi -> finite x = true) ->
  forall is b, Forall (fun i => (i < dim)%nat) is -> exists b', box_loop dim (map EFloat lo ++ map EFloat hi) is b = Ret (true, b').
Proof.
  intros L Hh F. induction is as [|i is IH]; intros b Fi; cbn [box_loop]; [eauto|]. apply Forall_cons_iff in Fi as [Li Fi]. unfold oget.
  rewrite nth_error_app1 by (rewrite map_length; lia). rewrite nth_error_map. destruct (nth_error lo i) as [x|] eqn:X; [|apply nth_error_None in X; lia]. cbn [option_map obind as_num]. rewrite (F x) by (left; eapply nth_error_In; eauto). cbn [negb].
  rewrite nth_error_app2 by (rewrite map_length; lia). rewrite map_length. replace (i + dim - length lo)%nat with i by lia. rewrite nth_error_map. destruct (nth_error hi i) as [y|] eqn:Y; [|apply nth_error_None in Y; lia].
  cbn [option_map obind as_num]. rewrite (F y) by (right; eapply nth_error_In; eauto). cbn [negb]. now apply IH.
Qed.
End Any.
