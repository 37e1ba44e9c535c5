(** C176: the images in the cover converge. *)
From Coquelicot Require Import Coquelicot.
From Verif Require Import Base ModelExpr ModelField ModelGeom SpecField SpecPoly SpecMax SpecTile SpecCover PropsMax PropsCentre ProofCentre ProofCover.
Import ListNotations.
Open Scope R_scope.

(** More images change the potential between the planes by at most this. *)
Theorem C176_images : forall g S h x y z n m,
  flat_area g S -> 0 < h -> 0 <= z <= h -> (1 <= n <= m)%nat ->
  Rabs (covered g m h (P3 x y z) - covered g n h (P3 x y z)) <= S * z / (8 * PI * h ^ 3 * INR n ^ 2).
Proof. exact images_error. Qed.
Print Assumptions C176_images.

(** There is a limit, [n] images come this close to it, and it is 0 on the
    cover and on the electrode plane. *)
Theorem C176_limit : forall g S h x y z,
  flat_area g S -> 0 < h -> 0 <= z <= h ->
  exists L : R, is_lim_seq (fun n => covered g n h (P3 x y z)) L /\
    (forall n, (1 <= n)%nat -> Rabs (covered g n h (P3 x y z) - L) <= S * z / (8 * PI * h ^ 3 * INR n ^ 2)) /\
    Rabs (L - covered g 0 h (P3 x y z)) <= 17 * S * z / (8 * PI * h ^ 3) /\
    (z = 0 \/ z = h -> L = 0).
Proof. exact images_limit. Qed.
Print Assumptions C176_limit.

(** Any number of images changes the potential by no more than the height
    times a constant: the values on the electrode plane are kept. *)
Theorem C176_plane : forall g S h x y z n,
  flat_area g S -> 0 < h -> 0 <= z <= h ->
  Rabs (covered g n h (P3 x y z) - covered g 0 h (P3 x y z)) <= 17 * S * z / (8 * PI * h ^ 3).
Proof. exact plane_error. Qed.
Print Assumptions C176_plane.

(** a unit square, an L and a pixel; with one image
    and a cover at the default height 50 the missing images are worth less than 2e-5 V *)
Example ex_176 : flat_area (EPolygon [C144_square 0] 0 0) 1 /\ flat_area (EPolygon [ell] 0 0) 3 /\ flat_area (EPoint [((1, 2), -4)] 0 0) 4 /\
  forall x y z m, 0 <= z <= 50 -> (1 <= m)%nat ->
    Rabs (covered (EPolygon [C144_square 0] 0 0) m 50 (P3 x y z) - covered (EPolygon [C144_square 0] 0 0) 1 50 (P3 x y z)) <= / 50000.
Proof.
  assert (Q : flat_area (EPolygon [C144_square 0] 0 0) 1).
  { split.
    - intros P [<-|[]]. eexists. left. apply convex_tiled, C144_square_convex.
    - unfold sum_over. cbn [map sumR]. rewrite (proj1 (C157_square 0)). cbn [fst]. rewrite Rabs_R1. ring. }
  split; [exact Q|]. split; [|split].
  - split.
    + intros P [<-|[]]. eexists. left. exact (proj1 ex_158_ell).
    + unfold sum_over, ell. cbn [map sumR].
      replace (fst (area_centroid [(0, 0); (2, 0); (2, 1); (1, 1); (1, 2); (0, 2)])) with 3 by (unfold area_centroid; cbn [roll_left app map2 sumR fst snd]; field).
      rewrite Rabs_right by lra. ring.
  - cbn [flat_area]. unfold sum_over. cbn [map sumR snd]. rewrite Rabs_left by lra. ring.
  - intros x y z m Hz Hm. eapply Rle_trans; [apply (C176_images _ 1 50 x y z 1 m Q); [lra|exact Hz|lia]|].
    cbn [INR]. pose proof PI_4. assert (3 < PI) by (pose proof PI2_3_2; lra).
    apply Rmult_le_reg_r with (8 * PI * 50 ^ 3 * 1 ^ 2); [lra|]. unfold Rdiv. rewrite Rmult_assoc, Rinv_l by lra. lra.
Qed.
