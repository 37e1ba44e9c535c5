(** Property theorems C08, C19, C22-C29, C31 and the general form of C21. *)
From Coquelicot Require Import Coquelicot.
From Coq Require Import Permutation.
From Verif Require Import Base ModelExpr ModelUtils ModelField ModelGeom SpecTensor SpecField SpecPoly
  ProofSys ProofPoly ProofPoly2 ProofPoly3.
Open Scope R_scope.
Notation length := List.length.

(** examples: an L-shaped polygon with a triangle, under a cover expansion,
    and a mesh of one square seen from above *)
Definition ex_L : list p2 := [(0, 0); (2, 0); (2, 1); (1, 1); (1, 3); (0, 3)].
Definition ex_poly : geom := EPolygon [ex_L; [(5, 5); (6, 5); (5, 7)]] 1 10.
Definition ex_mesh : geom :=
  EMesh [(0, 0); (1, 0); (1, 1); (0, 1)] [((3, 0), 0); ((0, 1), 0); ((1, 2), 0); ((2, 3), 0)]%nat [2] 0 50.
Lemma ex_poly_wf : well_formed ex_poly.
Proof. cbn. intros [H|[H|[]]]; discriminate. Qed.
Lemma ex_poly_smooth x y : smooth ex_poly (P3 x y 1).
Proof.
  split; [apply ex_poly_wf|]. intros k Hk. unfold image. cbn [pz].
  change (images 1) with [(-1)%Z; 0%Z; 1%Z] in Hk. destruct Hk as [<-|[<-|[<-|[]]]]; intros E; lra.
Qed.
Lemma ex_mesh_smooth x y : smooth ex_mesh (P3 x y 1).
Proof.
  split; [|split].
  - intros e He. cbn in He. destruct He as [<-|[<-|[<-|[<-|[]]]]]; cbn; lia.
  - intros v. unfold sum_over. cbn [map sumR fst snd nth].
    destruct v as [|[|[|[|v]]]]; cbn [Nat.eqb]; ring.
  - intros k Hk. change (images 0) with [0%Z] in Hk. destruct Hk as [<-|[]]. unfold image. cbn [pz]. intros E. lra.
Qed.
Definition ex_sys2 : list electrode :=
  [Electrode "p" 1 2 ex_poly; Electrode "m" 3 (-1) ex_mesh; Electrode "c" 0 1 (ECover 10)].
Lemma ex_sys2_smooth x y : forall e, In e ex_sys2 -> smooth (egeom e) (P3 x y 1).
Proof.
  intros e [<-|[<-|[<-|[]]]]; [apply ex_poly_smooth|apply ex_mesh_smooth|exact I].
Qed.

(** C22: polygons, closed meshes, pixels and covers in one system; entry
    k :: idx of order n+1 is the partial derivative along axis k of entry idx
    of order n *)
Theorem C22_derivatives :
  forall s t n p idx k, (forall e, In e s -> smooth (egeom e) p) ->
  (n <= 4)%nat -> (k < 3)%nat -> idx_of_order n idx ->
  returns_tensor s t n p /\ returns_tensor s t (S n) p /\
  partial (tensor_entry s t n idx) k p (tensor_entry s t (S n) (k :: idx) p).
Proof. exact smooth_derivatives. Qed.
Print Assumptions C22_derivatives.
Example C22_example : forall x y, (forall e, In e ex_sys2 -> smooth (egeom e) (P3 x y 1)) /\
  idx_of_order 4 [0; 1; 2; 2]%nat.
Proof.
  intros x y. split; [apply ex_sys2_smooth|].
  split; [reflexivity|]. repeat (apply Forall_cons; [lia|]). apply Forall_nil.
Qed.

(** C21, also for polygons and meshes and for every derivative up to order 3 *)
Theorem C21_harmonic_surface :
  forall s t n p idx, (forall e, In e s -> smooth (egeom e) p) ->
  (n <= 3)%nat -> idx_of_order n idx -> harmonic_at (tensor_entry s t n idx) p.
Proof. exact smooth_harmonic. Qed.
Print Assumptions C21_harmonic_surface.

(** C08 *)
Theorem C08_pseudo_derivatives :
  forall c s n p idx k, (forall e, In e s -> smooth (egeom e) p) ->
  (n <= 3)%nat -> (k < 3)%nat -> idx_of_order n idx ->
  (exists T, pseudo_potential (Some c) s p n = Ok T) /\
  (exists T, pseudo_potential (Some c) s p (S n) = Ok T) /\
  partial (pseudo_entry c s n idx) k p (pseudo_entry c s (S n) (k :: idx) p).
Proof. exact smooth_pseudo. Qed.
(** ... and order 0 is the squared norm of the gradient of the rf potential *)
Theorem C08_pseudo_value :
  forall c s p, (forall e, In e s -> well_formed (egeom e)) ->
  pseudo_entry c s 0 [] p =
  c ^ 2 * (tensor_entry s TRf 1 [0%nat] p ^ 2 + tensor_entry s TRf 1 [1%nat] p ^ 2 +
   tensor_entry s TRf 1 [2%nat] p ^ 2).
Proof. exact pseudo0. Qed.
Print Assumptions C08_pseudo_derivatives.
Print Assumptions C08_pseudo_value.
Example C08_example : forall x y e, In e ex_sys2 -> smooth (egeom e) (P3 x y 1).
Proof. exact ex_sys2_smooth. Qed.

(** C23: for every path, cover expansion, derivative order [d], entry [i] and
    point *)
Theorem C23_start_vertex :
  forall l1 l2 n h d i p,
  value (EPolygon [l1 ++ l2] n h) d i p = value (EPolygon [l2 ++ l1] n h) d i p.
Proof. exact polygon_rotate. Qed.
Theorem C23_reverse :
  forall path n h d i p, value (EPolygon [rev path] n h) d i p = - value (EPolygon [path] n h) d i p.
Proof. exact polygon_reverse. Qed.
Theorem C23_cut :
  forall v0 A v1 B n h d i p,
  value (EPolygon [v0 :: A ++ v1 :: B] n h) d i p =
  value (EPolygon [v0 :: A ++ [v1]] n h) d i p + value (EPolygon [v1 :: B ++ [v0]] n h) d i p.
Proof. exact polygon_cut. Qed.
Theorem C23_paths_add :
  forall ps qs n h d i p, ~ In [] (ps ++ qs) ->
  value (EPolygon (ps ++ qs) n h) d i p = value (EPolygon ps n h) d i p + value (EPolygon qs n h) d i p.
Proof. exact polygon_union. Qed.
Print Assumptions C23_start_vertex.
Print Assumptions C23_reverse.
Print Assumptions C23_cut.
Print Assumptions C23_paths_add.
(** cutting the L into two rectangles *)
Example C23_example : ex_L ++ [] = (0, 0) :: [(2, 0); (2, 1)] ++ (1, 1) :: [(1, 3); (0, 3)].
Proof. reflexivity. Qed.

(** C24 *)
Theorem C24_mirror :
  forall g d i p, is_patch g -> well_formed g ->
  value g d i (mirror p) = - (-1) ^ z_order d i * value g d i p.
Proof. exact value_mirror. Qed.
Print Assumptions C24_mirror.
Example C24_example : is_patch ex_poly /\ well_formed ex_poly /\ z_order 3 4 = 2%nat /\ z_order 0 0 = 0%nat.
Proof. split; [exact I|]. split; [apply ex_poly_wf|]. split; reflexivity. Qed.

(** C25: also for every derivative with an even number of z *)
Theorem C25_single_image :
  forall g d i x y h n, is_patch g -> well_formed g -> Nat.even (z_order d i) = true ->
  value (with_cover (Z.of_nat n) h g) d i (P3 x y h) =
  value (with_cover 0 h g) d i (P3 x y ((2 * INR n + 1) * h)).
Proof. exact cover_single. Qed.
Theorem C25_limit :
  forall g x y h, is_patch g -> well_formed g -> h <> 0 ->
  is_lim_seq (fun n => value (with_cover (Z.of_nat n) h g) 0 0 (P3 x y h)) 0.
Proof. exact cover_limit. Qed.
Print Assumptions C25_single_image.
Print Assumptions C25_limit.
Example C25_example : is_patch ex_poly /\ well_formed ex_poly /\ Nat.even (z_order 0 0) = true.
Proof. split; [exact I|]. split; [apply ex_poly_wf|reflexivity]. Qed.

(** C26 *)
Theorem C26_cover :
  forall h v p, h <> 0 ->
  potential (ECover h) [p] 0 v None = Ok [[v * pz p / h]] /\
  potential (ECover h) [p] 1 v None = Ok [[0; 0; v / h]] /\
  forall d, (2 <= d)%nat -> potential (ECover h) [p] d v None = Ok [repeat 0 (2 * d + 1)].
Proof. exact cover_rows. Qed.
Theorem C26_values_and_gradient :
  forall h v, h <> 0 ->
  (forall x y, v * pz (P3 x y 0) / h = 0 /\ v * pz (P3 x y h) / h = v) /\
  (forall p, partial (fun q => v * pz q / h) 0 p 0 /\ partial (fun q => v * pz q / h) 1 p 0 /\
     partial (fun q => v * pz q / h) 2 p (v / h)).
Proof. exact cover_affine. Qed.
Print Assumptions C26_cover.
Print Assumptions C26_values_and_gradient.

(** C27.  [no_cover]: cover_nmax = 0, see C27_refuted_cover for the rest *)
Theorem C27_mesh :
  forall s xs d,
  (forall e, In e s -> polygon_electrode e /\ well_formed (egeom e) /\ no_cover e) ->
  exists m pot, from_polygon_system s = Ok m /\ electrical_potential [m] xs d TDc = Ok pot /\
    electrical_potential s xs d TDc = Ok pot.
Proof. exact from_polygons. Qed.
(** finding: the mesh silently drops the cover expansion of the polygons *)
Theorem C27_refuted_cover :
  exists s xs m pot pot', (forall e, In e s -> polygon_electrode e /\ well_formed (egeom e)) /\
  from_polygon_system s = Ok m /\ electrical_potential [m] xs 0 TDc = Ok pot /\
  electrical_potential s xs 0 TDc = Ok pot' /\ pot <> pot'.
Proof. exact mesh_no_cover. Qed.
Print Assumptions C27_mesh.
Print Assumptions C27_refuted_cover.
Example C27_example : forall e, In e [Electrode "a" 2 0 (EPolygon [ex_L; [(5, 5); (6, 5); (5, 7)]] 0 50);
    Electrode "b" (-1) 0 (EPolygon [[(9, 9); (8, 9); (8, 8)]] 0 50)] ->
  polygon_electrode e /\ well_formed (egeom e) /\ no_cover e.
Proof.
  intros e [<-|[<-|[]]]; (split; [exact I|split; [|reflexivity]]); cbn; intros H;
  repeat (destruct H as [H|H]; [discriminate|]); destruct H.
Qed.

(** C28 *)
Theorem C28_translation :
  forall a b g d i p, is_surface g -> well_formed g ->
  value (shift_geom a b g) d i (shift_pt a b p) = value g d i p.
Proof. exact value_shift. Qed.
Theorem C28_scaling :
  forall s g d i p, 0 < s -> is_surface g -> well_formed g ->
  value (scale_geom s g) d i (scale_pt s p) = / s ^ d * value g d i p.
Proof. exact value_scale. Qed.
Print Assumptions C28_translation.
Print Assumptions C28_scaling.
Example C28_example : is_surface ex_poly /\ well_formed ex_poly /\ is_surface ex_mesh.
Proof. split; [exact I|]. split; [apply ex_poly_wf|exact I]. Qed.

(** C29 *)
Theorem C29_formulas_agree :
  forall v1 v2 p l2 a, pz p <> 0 ->
  let x1 := px p - fst v1 in let y1 := py p - snd v1 in
  let x2 := px p - fst v2 in let y2 := py p - snd v2 in
  let zs := Rabs (pz p) in
  0 < zs * (dist p v1 * dist p v2 + x1 * x2 + y1 * y2 + zs * (zs + dist p v1 + dist p v2)) /\
  cedge_expr0 x1 x2 y1 y2 (dist p v1) (dist p v2) l2 (pz p) a =
  edge_expr0 x1 x2 y1 y2 (dist p v1) (dist p v2) l2 (pz p) a.
Proof. exact edge_formulas. Qed.
Theorem C29_python_divides_by_zero :
  forall x1 x2 y1 y2 r1 r2 z, z = 0 -> Rabs z * (r1 * r2 + x1 * x2 + y1 * y2 + Rabs z * (Rabs z + r1 + r2)) = 0.
Proof. exact edge_zero_den. Qed.
Print Assumptions C29_formulas_agree.
Print Assumptions C29_python_divides_by_zero.

(** C31 *)
Theorem C31_pixels_add :
  forall l1 l2 n h d i p,
  value (EPoint (l1 ++ l2) n h) d i p = value (EPoint l1 n h) d i p + value (EPoint l2 n h) d i p.
Proof. exact pixels_app. Qed.
Theorem C31_proportional_to_areas :
  forall c l n h d i p,
  value (EPoint (map (fun va => (fst va, c * snd va)) l) n h) d i p = c * value (EPoint l n h) d i p.
Proof. exact pixels_scale. Qed.
Theorem C31_to_points :
  forall nm dc rf paths n h,
  exists pixels, to_points (Electrode nm dc rf (EPolygon paths n h)) =
      Ok (Electrode nm dc rf (EPoint pixels n h)) /\
    map snd pixels = map signed_area paths /\
    map fst pixels = map (fun p => snd (area_centroid p)) paths /\
    sum_over pixels snd = sum_over paths signed_area.
Proof. exact to_points_ok. Qed.
Print Assumptions C31_pixels_add.
Print Assumptions C31_proportional_to_areas.
Print Assumptions C31_to_points.

(** C19 *)
Theorem C19_area : forall l, fst (area_centroid l) = signed_area l.
Proof. exact ac_area. Qed.
Theorem C19_start_vertex : forall l1 l2, area_centroid (l1 ++ l2) = area_centroid (l2 ++ l1).
Proof. exact ac_rotate. Qed.
Theorem C19_reverse :
  forall l, signed_area l <> 0 -> area_centroid (rev l) = (- fst (area_centroid l), snd (area_centroid l)).
Proof. exact ac_reverse. Qed.
Theorem C19_cut :
  forall v0 A v1 B, let P := v0 :: A ++ v1 :: B in let P1 := v0 :: A ++ [v1] in let P2 := v1 :: B ++ [v0] in
  signed_area P <> 0 -> signed_area P1 <> 0 -> signed_area P2 <> 0 ->
  let '(a, (cx, cy)) := area_centroid P in let '(a1, (cx1, cy1)) := area_centroid P1 in
  let '(a2, (cx2, cy2)) := area_centroid P2 in
  a = a1 + a2 /\ a * cx = a1 * cx1 + a2 * cx2 /\ a * cy = a1 * cy1 + a2 * cy2.
Proof. exact ac_cut. Qed.
Theorem C19_shift :
  forall a b l, signed_area l <> 0 -> let '(ar, (cx, cy)) := area_centroid l in
  area_centroid (map (shift2 a b) l) = (ar, (cx + a, cy + b)).
Proof. exact ac_shift. Qed.
Theorem C19_scale :
  forall s l, s <> 0 -> signed_area l <> 0 -> let '(a, (cx, cy)) := area_centroid l in
  area_centroid (map (scale2 s) l) = (s ^ 2 * a, (s * cx, s * cy)).
Proof. exact ac_scale. Qed.
Theorem C19_triangle :
  forall x0 y0 x1 y1 x2 y2, (x1 - x0) * (y2 - y0) - (x2 - x0) * (y1 - y0) <> 0 ->
  area_centroid [(x0, y0); (x1, y1); (x2, y2)] =
  (((x1 - x0) * (y2 - y0) - (x2 - x0) * (y1 - y0)) / 2, ((x0 + x1 + x2) / 3, (y0 + y1 + y2) / 3)).
Proof. exact ac_triangle. Qed.
Theorem C19_rectangle :
  forall x0 y0 x1 y1, x0 <> x1 -> y0 <> y1 ->
  area_centroid (rectangle x0 y0 x1 y1) = ((x1 - x0) * (y1 - y0), ((x0 + x1) / 2, (y0 + y1) / 2)).
Proof. exact ac_rectangle. Qed.
Print Assumptions C19_area.
Print Assumptions C19_start_vertex.
Print Assumptions C19_reverse.
Print Assumptions C19_cut.
Print Assumptions C19_shift.
Print Assumptions C19_scale.
Print Assumptions C19_triangle.
Print Assumptions C19_rectangle.
Example C19_example : signed_area ex_L = 4.
Proof. unfold signed_area, edges_of, cross2, sum_over, ex_L. cbn [last removelast combine map sumR fst snd]. field. Qed.
