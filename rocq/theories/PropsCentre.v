(** C157: area and centroid of a polygon, and its replacement by a point electrode.
    C158: polygons that are not convex, and polygons with holes. *)
From Coquelicot Require Import Coquelicot.
From Coq Require Import String Permutation.
From Verif Require Import Base ModelField ModelGeom SpecField SpecPoly SpecMax SpecCentre SpecTile ProofPoly3 ProofCentre PropsMax.
Open Scope R_scope.
Notation length := List.length.

(** The first result of area_centroid is the area: the integral of the lengths of the
    vertical slices.  It is positive. *)
Theorem C157_area : forall path A B lo hi, convex path -> (forall v, In v path -> A < fst v < B) ->
  (forall u, (forall v, In v path -> fst v <> u) -> slice_between path u (lo u) (hi u)) ->
  is_RInt (fun u => hi u - lo u) A B (fst (area_centroid path)).
Proof. exact area_int. Qed.
Theorem C157_area_positive : forall path, convex path -> 0 < fst (area_centroid path).
Proof. exact area_pos. Qed.
(** The second one is the centroid: the integral of every affine function over the inside
    is its value there times the area. *)
Theorem C157_centroid : forall path A B lo hi al be ga, convex path -> (forall v, In v path -> A < fst v < B) ->
  (forall u, (forall v, In v path -> fst v <> u) -> slice_between path u (lo u) (hi u)) ->
  let '(a, (cx, cy)) := area_centroid path in
  is_RInt (fun u => RInt (fun w => al + be * u + ga * w) (lo u) (hi u)) A B (a * (al + be * cx + ga * cy)).
Proof. exact affine_mean. Qed.
(** The potential of the point electrode with this area at this point differs from that of
    the polygon, convex or cut into convex pieces, by an error of second order in its
    size, which falls with the distance r. *)
Theorem C157_distance : forall path parts h x y z delta r, tiled [path] parts -> 0 < z -> 0 < r ->
  let '(a, c) := area_centroid path in (forall Q, In Q parts -> inside_disc Q c delta) -> disc_apart c delta (P3 x y z) r ->
  Rabs (value (EPolygon [path] 0 h) 0 0 (P3 x y z) - value (EPoint [(c, a)] 0 h) 0 0 (P3 x y z)) <= a * (3 * z * delta ^ 2 / (PI * r ^ 5)).
Proof. exact point_error. Qed.
(** The same for to_points of an electrode of any number of outlines in either direction
    with any number of images of the cover. *)
Theorem C157_to_points : forall e e' paths n h p delta, egeom e = EPolygon paths n h -> to_points e = Ok e' ->
  (forall P, In P paths -> exists parts, outline P parts /\ forall Q, In Q parts -> inside_disc Q (snd (area_centroid P)) delta) ->
  (forall k, In k (images n) -> pz (image h k p) <> 0) ->
  Rabs (value (egeom e) 0 0 p - value (egeom e') 0 0 p) <=
  sum_over paths (fun P => Rabs (fst (area_centroid P))) * sum_over (images n) (fun k => 3 * delta ^ 2 / (PI * pz (image h k p) ^ 4)).
Proof. exact to_points_error. Qed.
(** For electrodes cut in ever smaller polygons the result converges. *)
Theorem C157_converges : forall S n h p eps, 0 < S -> 0 < eps -> (forall k, In k (images n) -> pz (image h k p) <> 0) ->
  exists delta, 0 < delta /\ forall e e' paths, egeom e = EPolygon paths n h -> to_points e = Ok e' ->
  (forall P, In P paths -> exists parts, outline P parts /\ forall Q, In Q parts -> inside_disc Q (snd (area_centroid P)) delta) ->
  sum_over paths (fun P => Rabs (fst (area_centroid P))) <= S ->
  Rabs (value (egeom e) 0 0 p - value (egeom e') 0 0 p) < eps.
Proof. exact points_converge. Qed.
Print Assumptions C157_area.
Print Assumptions C157_area_positive.
Print Assumptions C157_centroid.
Print Assumptions C157_distance.
Print Assumptions C157_to_points.
Print Assumptions C157_converges.
(** the unit square: area 1, centroid (1/2, 1/2), in a disc of radius 1 *)
Lemma C157_square a : area_centroid (C144_square a) = (1, (a + 1 / 2, 1 / 2)) /\ inside_disc (C144_square a) (a + 1 / 2, 1 / 2) 1.
Proof.
  split.
  - unfold area_centroid, C144_square. cbn [roll_left app map2 sumR fst snd]. apply f_equal2; [field|]. apply f_equal2; field; lra.
  - intros [x y] I.
    pose proof (I ((a, 1), (a, 0)) ltac:(cbn; tauto)) as I1. pose proof (I ((a, 0), (a + 1, 0)) ltac:(cbn; tauto)) as I2.
    pose proof (I ((a + 1, 0), (a + 1, 1)) ltac:(cbn; tauto)) as I3. pose proof (I ((a + 1, 1), (a, 1)) ltac:(cbn; tauto)) as I4.
    unfold left_of in *. cbn [fst snd] in *.
    assert (Q : forall t, - (1 / 2) <= t <= 1 / 2 -> t ^ 2 <= 1 / 4).
    { intros t H. replace (1 / 4) with ((1 / 2) ^ 2) by field. apply pow_maj_Rabs. apply Rabs_le. exact H. }
    pose proof (Q (x - (a + 1 / 2)) ltac:(lra)). pose proof (Q (y - 1 / 2) ltac:(lra)). lra.
Qed.
(** two squares, at the height 10: the error is below 10^-3 *)
Example ex_157 : let e := Electrode "a" 1 0 (EPolygon [C144_square 0; C144_square 1] 0 1) in
  exists e', to_points e = Ok e' /\ Rabs (value (egeom e) 0 0 (P3 0 0 10) - value (egeom e') 0 0 (P3 0 0 10)) <= 1 / 1000.
Proof.
  cbv zeta. eexists. split; [reflexivity|].
  match goal with |- context [egeom (Electrode _ _ _ (EPoint ?l _ _))] => set (px' := l) end.
  assert (I0 : images 0 = [0%Z]) by (vm_compute; reflexivity).
  pose proof (C157_to_points (Electrode "a" 1 0 (EPolygon [C144_square 0; C144_square 1] 0 1)) (Electrode "a" 1 0 (EPoint px' 0 1)) [C144_square 0; C144_square 1] 0 1 (P3 0 0 10) 1 eq_refl eq_refl) as H.
  rewrite I0 in H. unfold sum_over, image in H. cbn [map sumR px py pz] in H. rewrite !(proj1 (C157_square _)) in H. cbn [fst] in H. rewrite !Rabs_R1 in H.
  eapply Rle_trans; [apply H|].
  - intros P [<-|[<-|[]]]; eexists; (split; [left; apply convex_tiled; apply C144_square_convex|]); intros Q [<-|[]]; rewrite (proj1 (C157_square _)); apply C157_square.
  - intros k [<-|[]]. lra.
  - pose proof PI2_3_2 as PP. replace (10 + 2 * 0 * 1) with 10 by ring. replace ((1 + (1 + 0)) * (3 * 1 ^ 2 / (PI * 10 ^ 4) + 0)) with (3 / 5000 * / PI) by (field; lra).
    apply (Rle_trans _ (3 / 5000 * / 3)); [|lra]. apply Rmult_le_compat_l; [lra|]. apply Rinv_le_contravar; lra.
Qed.

(** C158: an electrode has the same potential and derivatives as the pieces it is cut into. *)
Theorem C158_same : forall paths parts n h d i p, tiled paths parts ->
  value (EPolygon paths n h) d i p = value (EPolygon parts n h) d i p.
Proof. exact tiled_value. Qed.
(** Above the plane the potential at 1 V is between 0 and 1. *)
Theorem C158_between : forall paths parts h x y z, tiled paths parts -> 0 < z ->
  0 < value (EPolygon paths 0 h) 0 0 (P3 x y z) < 1.
Proof. exact tiled_between. Qed.
(** It is the integral of the Poisson kernel over the pieces. *)
Theorem C158_poisson : forall paths parts h x y z A B (lo hi : list p2 -> R -> R), tiled paths parts -> 0 < z ->
  (forall Q v, In Q parts -> In v Q -> A < fst v < B) ->
  (forall Q u, In Q parts -> (forall v, In v Q -> fst v <> u) -> slice_between Q u (lo Q u) (hi Q u)) ->
  is_RInt (fun u => sum_over parts (fun Q => RInt (poisson (P3 x y z) u) (lo Q u) (hi Q u))) A B (value (EPolygon paths 0 h) 0 0 (P3 x y z)).
Proof. exact tiled_poisson. Qed.
(** The areas of the outlines, negative for holes, add up to the area of the pieces. *)
Theorem C158_area : forall paths parts A B (lo hi : list p2 -> R -> R), tiled paths parts ->
  (forall Q v, In Q parts -> In v Q -> A < fst v < B) ->
  (forall Q u, In Q parts -> (forall v, In v Q -> fst v <> u) -> slice_between Q u (lo Q u) (hi Q u)) ->
  is_RInt (fun u => sum_over parts (fun Q => hi Q u - lo Q u)) A B (sum_over paths (fun P => fst (area_centroid P))).
Proof. exact tiled_area. Qed.
(** The potential of a system of such electrodes stays between the voltages and 0. *)
Theorem C158_system : forall s t parts x y z m M, tiled_system s parts -> 0 < z -> m <= 0 <= M ->
  (forall e v, In e s -> volt t e = Some v -> m <= v <= M) ->
  exists v, electrical_potential s [P3 x y z] 0 t = Ok [[v]] /\ m <= v <= M /\ (0 < M -> v < M) /\ (m < 0 -> m < v).
Proof. exact tiled_range. Qed.
Print Assumptions C158_same.
Print Assumptions C158_between.
Print Assumptions C158_poisson.
Print Assumptions C158_area.
Print Assumptions C158_system.

Ltac split_at x r :=
  match r with
  | x :: ?t => constr:((@nil ((R * R) * (R * R)), t))
  | ?y :: ?t => let p := split_at x t in match p with (?a, ?b) => constr:((y :: a, b)) end
  end.
Ltac permute := unfold p2;
  repeat match goal with |- Permutation (?x :: ?l) ?r => let p := split_at x r in match p with (?a, ?b) => change r with (a ++ x :: b); apply Permutation_cons_app; cbn [app] end end;
  apply Permutation_refl.
Ltac convex_by_hand :=
  split; [|split; [cbn; lia|]];
  [repeat constructor; cbn; intros H; repeat destruct H as [H|H]; try contradiction; injection H; intros; lra|
   let e := fresh in let v := fresh in let He := fresh in let Hv := fresh in intros e v He Hv; cbn in He, Hv;
   repeat destruct He as [He|He]; try contradiction; subst e; repeat destruct Hv as [Hv|Hv]; try contradiction; subst v; cbn [fst snd];
   first [left; reflexivity|right; left; reflexivity|right; right; unfold left_of; cbn [fst snd]; lra]].
Ltac apart_by_hand :=
  let x := fresh in let y := fresh in let I1 := fresh in let I2 := fresh in
  intros [x y] I1 I2;
  repeat match goal with
  | H : interior (?a :: ?l) _ |- _ => let X := fresh in pose proof (fun e He => H e He) as X; clear H; unfold edges_of in X; cbn [last removelast combine In] in X;
      repeat match type of X with
      | forall e, (?c = e \/ _) -> _ => let Y := fresh in pose proof (X c (or_introl eq_refl)) as Y; let Z := fresh in pose proof (fun e He => X e (or_intror He)) as Z; clear X; rename Z into X
      end; clear X
  end;
  unfold left_of in *; cbn [fst snd] in *; lra.
(** an L *)
Definition ell : list p2 := [(0, 0); (2, 0); (2, 1); (1, 1); (1, 2); (0, 2)].
Example ex_158_ell : tiled [ell] [[(0, 0); (2, 0); (2, 1); (1, 1)]; [(0, 0); (1, 1); (1, 2); (0, 2)]] /\ ~ convex ell.
Proof.
  split.
  - split; [intros [E|[]]; discriminate|]. split; [discriminate|]. split; [intros P [<-|[<-|[]]]; convex_by_hand|]. split.
    + constructor; [constructor; [apart_by_hand|constructor]|constructor; constructor].
    + exists [((1, 1), (0, 0))]. unfold ell, edges_of. cbn [flat_map last removelast combine app map fst snd]. permute.
  - intros (_ & _ & H). specialize (H ((2, 1), (1, 1)) (1, 2) ltac:(cbn; tauto) ltac:(cbn; tauto)). cbn [fst snd] in H. unfold left_of in H. cbn [fst snd] in H.
    destruct H as [H|[H|H]]; [injection H; intros; lra|injection H; intros; lra|lra].
Qed.
(** a square with a square hole *)
Definition frame : list (list p2) := [[(0, 0); (3, 0); (3, 3); (0, 3)]; [(1, 1); (1, 2); (2, 2); (2, 1)]].
Definition frame_parts : list (list p2) := [[(0, 0); (3, 0); (2, 1); (1, 1)]; [(3, 0); (3, 3); (2, 2); (2, 1)]; [(3, 3); (0, 3); (1, 2); (2, 2)]; [(0, 3); (0, 0); (1, 1); (1, 2)]].
Lemma frame_tiled : tiled frame frame_parts.
Proof.
  unfold frame, frame_parts. split; [intros [E|[E|[]]]; discriminate|]. split; [discriminate|]. split; [intros P [<-|[<-|[<-|[<-|[]]]]]; convex_by_hand|]. split.
  - repeat constructor; apart_by_hand.
  - exists [((0, 0), (1, 1)); ((3, 0), (2, 1)); ((3, 3), (2, 2)); ((0, 3), (1, 2))]. unfold edges_of. cbn [flat_map last removelast combine app map fst snd]. permute.
Qed.
Example ex_158_frame : tiled frame frame_parts /\ (forall x y z, 0 < z -> 0 < value (EPolygon frame 0 1) 0 0 (P3 x y z) < 1) /\
  sum_over frame (fun P => fst (area_centroid P)) = 8.
Proof.
  split; [exact frame_tiled|]. split; [intros x y z Hz; exact (C158_between frame frame_parts 1 x y z frame_tiled Hz)|].
  unfold sum_over, frame, area_centroid. cbn [map roll_left app map2 sumR fst snd]. field.
Qed.
(** the frame at 2 V and an electrode at -3 V in its hole *)
Definition hole : list p2 := [(1, 1); (2, 1); (2, 2); (1, 2)].
Example ex_158_system : let s := [Electrode "a" 2 0 (EPolygon frame 0 1); Electrode "b" (-3) 0 (EPolygon [hole] 0 1)] in
  tiled_system s (fun e => if String.eqb (ename e) "a" then frame_parts else [hole]) /\ forall e v, In e s -> volt TDc e = Some v -> -3 <= v <= 2.
Proof.
  cbv zeta. split; [split|].
  - intros e [<-|[<-|[]]]; cbn [ename String.eqb Ascii.eqb Bool.eqb egeom]; eexists; eexists; (split; [reflexivity|]); [exact frame_tiled|]. apply convex_tiled. unfold hole. convex_by_hand.
  - cbn [flat_map ename String.eqb Ascii.eqb Bool.eqb app]. unfold frame_parts, hole. cbn [app]. repeat constructor; apart_by_hand.
  - intros e v [<-|[<-|[]]] E; cbn in E; injection E as <-; lra.
Qed.
