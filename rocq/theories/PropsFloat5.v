(** C184: the rounding error of the potential, its derivatives and the
    pseudopotential of a system below a cover, with the images of the electrodes
    in the cover.  See SpecFloat, SpecFloat2 to SpecFloat5 for what the
    statements mean. *)
From Coq Require Import String.
From Verif Require Import Base ModelUtils ModelField ModelFloat ModelFloatField ModelFloatPseudo SpecTensor
  SpecFloat SpecFloat2 SpecFloat3 SpecFloat4 SpecFloat5 PropsFloat3 ProofFloat13 ProofFloat14 ProofFloat15.
Import ListNotations.
Open Scope R_scope.

(** C184: between the plane and the cover, the potential computed with doubles
    differs from the potential in the real numbers by one rounding for every
    addition, images included, and 33 more, compared to the sum of the sizes of
    what is added, seen from the point and from its images. *)
Theorem C184_potential pw at2 p s xs t out ref j :
  good_pow pw -> good_pi p -> good_atan2 at2 ->
  felectrical_potential (b64x pw at2 p) s xs 0 t = Ok out -> electrical_potential s xs 0 t = Ok ref ->
  (j < length xs)%nat -> 0 < pz (at_ xs j) -> below_cover (at_ xs j) s ->
  Rabs (cell out j 0 - cell ref j 0) <=
  gam (image_size_count (at_ xs j) s + 33) * image_size_total t (at_ xs j) s.
Proof. intros Hw Hp Ha E E' Hj Hz Hb. exact (image_potential pw at2 p Hw Hp Ha s xs t out ref j Hb E E' Hj Hz). Qed.
Print Assumptions C184_potential.

(** C184: the same for the derivatives of the orders 1 to 5, if neither the
    point nor an image is too close to a side *)
Theorem C184_derivatives pw at2 p d i s xs t out ref j :
  good_pow pw -> good_pi p -> (1 <= d <= 5)%nat -> (i < 2 * d + 1)%nat ->
  felectrical_potential (b64x pw at2 p) s xs d t = Ok out -> electrical_potential s xs d t = Ok ref ->
  (j < length xs)%nat -> 0 < pz (at_ xs j) -> below_cover (at_ xs j) s -> images_clear (at_ xs j) s ->
  Rabs (cell out j i - cell ref j i) <=
  gam (image_count d i (at_ xs j) s + image_roundings d) * image_total d i t (at_ xs j) s.
Proof. intros Hw Hp Hd Hi. exact (image_slope pw at2 p Hw Hp d i Hd Hi s xs t out ref j). Qed.
Print Assumptions C184_derivatives.

(** C184: in plain numbers: with a million additions at most, both errors are
    below 3e-10 of the sizes *)
Theorem C184_million pw at2 p s xs t j :
  good_pow pw -> good_pi p -> (j < length xs)%nat -> 0 < pz (at_ xs j) -> below_cover (at_ xs j) s ->
  (forall out ref, good_atan2 at2 ->
     felectrical_potential (b64x pw at2 p) s xs 0 t = Ok out -> electrical_potential s xs 0 t = Ok ref ->
     (image_size_count (at_ xs j) s <= 10 ^ 6)%nat ->
     Rabs (cell out j 0 - cell ref j 0) <= 3 / 10 ^ 10 * image_size_total t (at_ xs j) s) /\
  (forall d i out ref, (1 <= d <= 5)%nat -> (i < 2 * d + 1)%nat -> images_clear (at_ xs j) s ->
     felectrical_potential (b64x pw at2 p) s xs d t = Ok out -> electrical_potential s xs d t = Ok ref ->
     (image_count d i (at_ xs j) s <= 10 ^ 6)%nat ->
     Rabs (cell out j i - cell ref j i) <= 3 / 10 ^ 10 * image_total d i t (at_ xs j) s).
Proof.
  intros Hw Hp Hj Hz Hb. split.
  - intros out ref Ha E E' Hn. exact (image_million0 pw at2 p Hw Hp Ha s xs t out ref j Hb E E' Hj Hz Hn).
  - intros d i out ref Hd Hi Hc E E' Hn. exact (image_million pw at2 p Hw Hp d i s xs t out ref j Hd Hi E E' Hj Hz Hb Hc Hn).
Qed.
Print Assumptions C184_million.

(** C184: every entry of the pseudopotential of the orders 0 to 4, and of the
    combined potential of the orders 1 to 4 *)
Theorem C184_pseudo pw at2 p es s x n c d idx :
  good_pow pw -> good_pi p -> good_einsum es -> 0 < pz x -> below_cover x s -> images_clear x s ->
  (d <= 4)%nat -> images_at_most n (d + 1) x s -> idx_of_order d idx ->
  (forall T T', fpseudo_potential (b64x pw at2 p) es (Some c) s x d = Ok T -> pseudo_potential (Some c) s x d = Ok T' ->
     Rabs (T idx - T' idx) <= gam (2 * (n + image_roundings (d + 1)) + 15) * image_pseudo c d x s idx) /\
  (forall T T', (1 <= d)%nat ->
     ftotal_potential (b64x pw at2 p) es (Some c) s x d "tot" = Ok T -> total_potential (Some c) s x d "tot" = Ok T' ->
     Rabs (T idx - T' idx) <=
     gam (2 * (n + image_roundings (d + 1)) + 16) * (image_entry d TDc x s idx + image_pseudo c d x s idx)).
Proof.
  intros Hw Hp He Hz Hb Hc Hd Hn Hi. split.
  - intros T T' E E'. exact (proj1 (image_pseudo_bounded pw at2 p Hw Hp es s x n He Hb Hz Hc c d T T' Hd Hn E E' idx Hi)).
  - intros T T' Hd1 E E'. exact (proj1 (image_total_bounded pw at2 p Hw Hp es s x n He Hb Hz Hc c d T T' (conj Hd1 Hd) Hn E E' idx Hi)).
Qed.
Print Assumptions C184_pseudo.

(** C184: in plain numbers: with a million additions in a derivative at most,
    both are below 5e-10 of the sizes *)
Theorem C184_pseudo_million pw at2 p es s x c d idx :
  good_pow pw -> good_pi p -> good_einsum es -> 0 < pz x -> below_cover x s -> images_clear x s ->
  (d <= 4)%nat -> images_at_most (10 ^ 6) (d + 1) x s -> idx_of_order d idx ->
  (forall T T', fpseudo_potential (b64x pw at2 p) es (Some c) s x d = Ok T -> pseudo_potential (Some c) s x d = Ok T' ->
     Rabs (T idx - T' idx) <= 5 / 10 ^ 10 * image_pseudo c d x s idx) /\
  (forall T T', (1 <= d)%nat ->
     ftotal_potential (b64x pw at2 p) es (Some c) s x d "tot" = Ok T -> total_potential (Some c) s x d "tot" = Ok T' ->
     Rabs (T idx - T' idx) <= 5 / 10 ^ 10 * (image_entry d TDc x s idx + image_pseudo c d x s idx)).
Proof.
  intros Hw Hp He Hz Hb Hc Hd Hn Hi. pose proof (image_371 d Hd) as Rd. split.
  - intros T T' E E'.
    apply (bounded_million2 (10 ^ 6) (image_roundings (d + 1)) (2 * (10 ^ 6 + image_roundings (d + 1)) + 15)); [exact (Nat.le_refl _)|exact Rd|apply Nat.add_le_mono_l; lia|].
    exact (image_pseudo_bounded pw at2 p Hw Hp es s x (10 ^ 6) He Hb Hz Hc c d T T' Hd Hn E E' idx Hi).
  - intros T T' Hd1 E E'.
    apply (bounded_million2 (10 ^ 6) (image_roundings (d + 1)) (2 * (10 ^ 6 + image_roundings (d + 1)) + 16)); [exact (Nat.le_refl _)|exact Rd|exact (Nat.le_refl _)|].
    exact (image_total_bounded pw at2 p Hw Hp es s x (10 ^ 6) He Hb Hz Hc c d T T' (conj Hd1 Hd) Hn E E' idx Hi).
Qed.
Print Assumptions C184_pseudo_million.

(** C184: nothing is too close to a side whose ends are within a million times
    the height of the point *)
Theorem C184_away x s : 0 < pz x -> below_cover x s ->
  (forall e v w, In e s -> In (v, w) (sides_of (egeom e)) -> dist x v <= 10 ^ 6 * pz x /\ dist x w <= 10 ^ 6 * pz x) ->
  images_clear x s.
Proof. exact (images_away x s). Qed.
Print Assumptions C184_away.

(** C184: without images the sizes are those of C181 *)
Theorem C184_same d i t x s : no_images s ->
  image_total d i t x s = slope_total d i t x s /\ image_count d i x s = slope_count d i x s.
Proof. exact (total_same d i t x s). Qed.
Print Assumptions C184_same.

(** a pixel and a triangle below a cover of height 10 with one image on either
    side, a mesh with two and the cover itself, seen from [(0, 0, 4)]: a side is
    seen from the heights 4, -16 and 24, and so is the pixel *)
Definition ex_below : list electrode :=
  [Electrode "a" 3 2 (EPoint [((3, 0), 1)] 1 10);
   Electrode "b" (-5) 1 (EPolygon [[(3, 0); (0, 3); (-3, 0)]] 1 10);
   Electrode "c" 1 0 (EMesh [(3, 0); (0, 3)] [((0, 1), 0)]%nat [2] 2 10);
   Electrode "d" 2 0 (ECover 10)].
Example ex_184 A :
  below_cover (P3 0 0 4) ex_below /\ images_clear (P3 0 0 4) ex_below /\ ~ no_images ex_below /\
  (exists out, felectrical_potential A ex_below [P3 0 0 4] 2 TDc = Ok out) /\
  (exists ref, electrical_potential ex_below [P3 0 0 4] 2 TDc = Ok ref) /\
  image_size_count (P3 0 0 4) ex_below = 18%nat /\ image_count 2 0 (P3 0 0 4) ex_below = 17%nat /\
  seen_from (P3 0 0 4) (EPoint [((3, 0), 1)] 1 10) = [P3 0 0 (-16); P3 0 0 4; P3 0 0 24] /\
  side_size (upper (P3 0 0 (-16))) (3, 0) (0, 3) = 17 * sqrt 265 / 16.
Proof.
  assert (B : below_cover (P3 0 0 4) ex_below).
  { unfold below_cover, ex_below. repeat (apply Forall_cons; [cbn; try (right; lra); exact I|]). apply Forall_nil. }
  assert (S : seen_from (P3 0 0 4) (EPoint [((3, 0), 1)] 1 10) = [P3 0 0 (-16); P3 0 0 4; P3 0 0 24]).
  { cbn [seen_from]. change (images 1) with [(-1)%Z; 0%Z; 1%Z]. cbn [map px py pz]. repeat f_equal; lra. }
  assert (D : forall a b, a * a + b * b = 9 -> dist (P3 0 0 4) (a, b) = 5).
  { intros a b H. unfold dist. cbn [px py pz fst snd]. replace ((0 - a) ^ 2 + (0 - b) ^ 2 + 4 ^ 2) with (5 ^ 2) by nra.
    apply sqrt_pow2. lra. }
  split; [exact B|]. split.
  { apply C184_away; [cbn; lra|exact B|]. intros e v w He Hvw. cbn [pz].
    assert (V : dist (P3 0 0 4) v = 5 /\ dist (P3 0 0 4) w = 5).
    { destruct He as [<-|[<-|[<-|[<-|[]]]]]; cbn [egeom sides_of flat_map sides last combine app map fst snd nth] in Hvw; cbn in Hvw;
        repeat destruct Hvw as [Hvw|Hvw]; try contradiction; injection Hvw as <- <-; split; apply D; lra. }
    destruct V as [-> ->]. lra. }
  split; [intros H; inversion H as [|? ? H1 _]; cbn in H1; discriminate|].
  split; [|split].
  - eexists. unfold felectrical_potential. cbn [fel_loop ex_below volt edc].
    repeat (destruct (Req_EM_T _ 0); [lra|]; cbn [fpotential stmts egeom bind existsb mesh_ok]).
    reflexivity.
  - eexists. unfold electrical_potential. cbn [el_loop ex_below volt edc].
    repeat (destruct (Req_EM_T _ 0); [lra|]; cbn [potential egeom bind existsb mesh_ok]).
    reflexivity.
  - split; [reflexivity|]. split; [reflexivity|]. split; [exact S|].
    unfold side_size, upper, dist. cbn [px py pz fst snd]. replace (Rabs (-16)) with 16 by (rewrite Rabs_left; lra).
    replace ((0 - 3) ^ 2 + (0 - 0) ^ 2 + 16 ^ 2) with 265 by lra. replace ((0 - 0) ^ 2 + (0 - 3) ^ 2 + 16 ^ 2) with 265 by lra.
    rewrite Rmin_left by lra. reflexivity.
Qed.
