(** Proofs for C174: the orientations of electrodes. *)
From Coq Require Import Lra Lia.
From Coquelicot Require Import Coquelicot.
From Verif Require Import Base ModelField ModelGeom SpecField SpecPoly SpecMax SpecTile SpecBound ProofField ProofPoly2 ProofPoly3 ProofMax ProofMax3 ProofMax6 ProofPoly ProofEdgeSym ProofDeriv ProofCentre ProofBound ModelOrient.
Import ListNotations.
Open Scope R_scope.
Notation length := List.length.

Lemma sign_pos x : 0 < x -> np_sign x = 1%Z.
Proof. intros H. unfold np_sign. destruct (Rlt_dec 0 x); [reflexivity|contradiction]. Qed.
Lemma sign_neg x : x < 0 -> np_sign x = (-1)%Z.
Proof. intros H. unfold np_sign. destruct (Rlt_dec 0 x); [lra|]. destruct (Rlt_dec x 0); [reflexivity|contradiction]. Qed.
Lemma outline_sign P parts h : outline P parts -> exists o, np_sign (fst (area_centroid P)) = o /\ (o = 1 \/ o = -1)%Z /\
  forall x y z, 0 < z -> 0 < IZR o * value (EPolygon [P] 0 h) 0 0 (P3 x y z) < 1.
Proof.
  intros [T|T].
  - exists 1%Z. split; [apply sign_pos, (tiled_area_pos P parts T)|]. split; [left; reflexivity|]. intros x y z Z. rewrite Rmult_1_l. exact (tiled_between [P] parts h x y z T Z).
  - exists (-1)%Z. split; [|split; [right; reflexivity|]].
    + apply sign_neg. pose proof (tiled_area_pos (rev P) parts T) as A. rewrite ac_area in *. unfold signed_area in *. fold (path_sum cross2 P). fold (path_sum cross2 (rev P)) in A.
      rewrite (path_sum_rev cross2 cross_swap) in A. lra.
    + intros x y z Z. pose proof (tiled_between [rev P] parts h x y z T Z) as B. rewrite polygon_reverse in B. lra.
Qed.
Lemma polygons_sign paths n h i : (i < length paths)%nat -> forall parts, outline (nth i paths []) parts ->
  exists o, nth_error (orientations (EPolygon paths n h)) i = Some o /\ (o = 1 \/ o = -1)%Z /\
  forall x y z, 0 < z -> 0 < IZR o * value (EPolygon [nth i paths []] 0 h) 0 0 (P3 x y z) < 1.
Proof.
  intros Hi parts O. destruct (outline_sign _ _ h O) as [o [E [D B]]]. exists o. split; [|split; assumption].
  cbn [orientations]. rewrite map_map. rewrite <- E. apply (map_nth_error (fun x => np_sign (fst (area_centroid x)))). apply nth_error_nth'. exact Hi.
Qed.
Lemma positive_electrode e paths h t v x y z : egeom e = EPolygon paths 0 h -> paths <> [] -> (forall P, In P paths -> exists parts, outline P parts) ->
  (forall o, In o (orientations (egeom e)) -> o = 1%Z) -> volt t e = Some v -> 0 < v -> 0 < z ->
  exists r, electrical_potential [e] [P3 x y z] 0 t = Ok [[r]] /\ 0 < r.
Proof.
  intros G N O S V Hv Z.
  assert (NE : ~ In [] paths) by (intros I; destruct (O [] I) as [parts [T|T]]; apply (proj1 T); left; reflexivity).
  assert (P : 0 < value (EPolygon paths 0 h) 0 0 (P3 x y z)).
  { rewrite polygon_split by exact NE. apply sum_pos; [exact N|]. intros P I. destruct (O P I) as [parts Q]. destruct (outline_sign P parts h Q) as [o [E [D B]]].
    assert (o = 1%Z) as ->.
    { apply S. rewrite G. cbn [orientations]. rewrite map_map. apply in_map_iff. exists P. split; [exact E|exact I]. }
    specialize (B x y z Z). lra. }
  assert (W : forall e', In e' [e] -> well_formed (egeom e')) by (intros e' [<-|[]]; rewrite G; exact NE).
  rewrite (electrical_one [e] _ _ _ W). unfold tab. cbn [seq map Nat.mul Nat.add]. eexists. split; [reflexivity|].
  unfold sys_term, sum_over. cbn [map sumR]. rewrite G, <- value_unit by exact NE.
  assert (volt_of t e = v) as -> by (destruct t; cbn in V |- *; inversion V; reflexivity). rewrite Rplus_0_r. apply Rmult_lt_0_compat; assumption.
Qed.

(** ** pixels *)
Lemma points_sign pixels n h : orientations (EPoint pixels n h) = repeat 1%Z (length pixels).
Proof. cbn [orientations]. induction pixels as [|a l IH]; [reflexivity|]. cbn. rewrite IH. reflexivity. Qed.
Lemma pixel_kernel c x y z : 0 < z -> 0 < z / (2 * PI * sqrt ((fst c - x) ^ 2 + (snd c - y) ^ 2 + z ^ 2) ^ 3).
Proof.
  intros Z. apply Rdiv_lt_0_compat; [exact Z|]. pose proof PI_RGT_0. apply Rmult_lt_0_compat; [lra|]. apply pow_lt, sqrt_lt_R0.
  pose proof (pow2_ge_0 (fst c - x)). pose proof (pow2_ge_0 (snd c - y)). pose proof (pow_lt z 2 Z). lra.
Qed.
Lemma points_positive pixels h x y z : pixels <> [] -> (forall c a, In (c, a) pixels -> 0 < a) -> 0 < z -> 0 < value (EPoint pixels 0 h) 0 0 (P3 x y z).
Proof.
  intros N A Z. rewrite point_images. apply sum_pos; [exact N|]. intros [c a] I. change (images 0) with [0%Z]. unfold sum_over. cbn [map sumR]. rewrite image0, Rplus_0_r.
  rewrite point_one by exact Z. apply Rmult_lt_0_compat; [exact (A c a I)|apply pixel_kernel, Z].
Qed.
(** a clockwise square and the pixel made of it *)
Definition clockwise : electrode := Electrode "hole" 1 0 (EPolygon [[(0, 0); (0, 1); (1, 1); (1, 0)]] 0 1).
Lemma clockwise_area : fst (area_centroid [(0, 0); (0, 1); (1, 1); (1, 0)]) = -1.
Proof. rewrite ac_area. unfold signed_area, edges_of, cross2, sum_over. cbn. field. Qed.
Lemma pixel_wrong : exists e', to_points clockwise = Ok e' /\ orientations (egeom clockwise) = [(-1)%Z] /\ orientations (egeom e') = [1%Z] /\
  forall x y z, 0 < z -> value (egeom e') 0 0 (P3 x y z) < 0.
Proof.
  eexists. split; [reflexivity|]. split; [|split; [reflexivity|]].
  - cbn [clockwise egeom orientations map]. rewrite clockwise_area, sign_neg by lra. reflexivity.
  - intros x y z Z. cbn [egeom map]. rewrite point_one by exact Z. rewrite clockwise_area.
    pose proof (pixel_kernel (snd (area_centroid [(0, 0); (0, 1); (1, 1); (1, 0)])) x y z Z). lra.
Qed.

(** ** a path that crosses itself: a large triangle and, the other way around, a small one *)
Definition crossing : list p2 := [(0, 0); (4, 0); (0, 4); (0, 0); (0, -1); (-1, 0)].
Lemma crossing_value h p : value (EPolygon [crossing] 0 h) 0 0 p =
  value (EPolygon [[(0, 0); (4, 0); (0, 4)]] 0 h) 0 0 p - value (EPolygon [[(0, 0); (-1, 0); (0, -1)]] 0 h) 0 0 p.
Proof.
  rewrite !polygon_value by (intros [E|[]]; discriminate E). unfold sum_over. cbn [map sumR]. unfold path_value. change (images 0) with [0%Z]. unfold sum_over. cbn [map sumR].
  set (f := fun a b : p2 => edge_term 0 a b 0 (image h 0 p)). change (fun a b : p2 => edge_term 0 a b 0 (image h 0 p)) with f.
  unfold path_sum, edges_of, crossing, sum_over. cbn [last removelast combine map sumR fst snd].
  assert (S : forall a b, f b a = - f a b) by (intros a b; apply edge_swap).
  clearbody f. rewrite (S (0, -1) (0, 0)), (S (-1, 0) (0, -1)), (S (0, 0) (-1, 0)). ring.
Qed.
Lemma small_limit f l eps : limit_from_above f l -> 0 < eps -> exists d, 0 < d /\ forall z, 0 < z < d -> Rabs (f z - l) < eps.
Proof.
  intros H E. destruct (H (fun y => Rabs (y - l) < eps)) as [d D].
  - exists (mkposreal eps E). intros y B. exact B.
  - exists d. split; [apply cond_pos|]. intros z Z. apply D; [|apply Z]. change (Rabs (z - 0) < d). rewrite Rminus_0_r, Rabs_right; lra.
Qed.
Lemma crossing_wrong h : orientations (EPolygon [crossing] 0 h) = [1%Z] /\ exists x y z, 0 < z /\ value (EPolygon [crossing] 0 h) 0 0 (P3 x y z) < 0.
Proof.
  split.
  - cbn [orientations map]. rewrite ac_area, sign_pos; [reflexivity|]. unfold crossing, signed_area, edges_of, cross2, sum_over. cbn. lra.
  - set (q := (- (1 / 4), - (1 / 4)) : p2).
    assert (A1 : 0 < signed_area [(0, 0); (4, 0); (0, 4)]) by (unfold signed_area, edges_of, cross2, sum_over; cbn; lra).
    assert (A2 : 0 < signed_area [(0, 0); (-1, 0); (0, -1)]) by (unfold signed_area, edges_of, cross2, sum_over; cbn; lra).
    pose proof (triangle_outside (0, 0) (4, 0) (0, 4) q 0 h A1) as L1. pose proof (triangle_inside (0, 0) (-1, 0) (0, -1) q 0 h A2) as L2.
    destruct (small_limit _ _ (1 / 2) (L1 ltac:(intros (u & v & w & U & V & W & S & X & Y); cbn in X, Y; lra) (or_intror eq_refl)) ltac:(lra)) as [d1 [D1 H1]].
    destruct (small_limit _ _ (1 / 2) (L2 ltac:(exists (1 / 2), (1 / 4), (1 / 4); cbn; repeat split; lra) (or_intror eq_refl)) ltac:(lra)) as [d2 [D2 H2]].
    exists (fst q), (snd q), (Rmin d1 d2 / 2). assert (M : 0 < Rmin d1 d2) by (apply Rmin_pos; assumption). pose proof (Rmin_l d1 d2). pose proof (Rmin_r d1 d2).
    split; [lra|]. rewrite crossing_value. specialize (H1 (Rmin d1 d2 / 2) ltac:(lra)). specialize (H2 (Rmin d1 d2 / 2) ltac:(lra)). cbv beta in H1, H2. change (Z.of_nat 0) with 0%Z in H1, H2.
    apply Rabs_def2 in H1, H2. unfold p2 in *. lra.
Qed.
