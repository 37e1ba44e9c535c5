(** Property theorems C32-C34. *)
From Coq Require Import Permutation.
From Verif Require Import Base ModelUtils ModelField ModelGrid SpecTensor SpecField SpecGrid ProofTensor ProofGrid.
Open Scope R_scope.
Notation length := List.length.

(** C32: the two conversions are inverse, also for fractional indices *)
Theorem C32_inverse : forall a x, astep a <> 0 ->
  indices_to_coordinates a (coordinates_to_indices a x) = x /\
  coordinates_to_indices a (indices_to_coordinates a x) = x.
Proof. intros a x H. exact (conj (to_of_index a x H) (of_to_index a x H)). Qed.
Theorem C32_origin : forall a, get_origin a = indices_to_coordinates a 0.
Proof. exact origin_index. Qed.
(** neighbouring indices are one step apart, opposite ones centred *)
Theorem C32_step : forall a x, indices_to_coordinates a (x + 1) = indices_to_coordinates a x + astep a.
Proof. intros a x. unfold indices_to_coordinates. ring. Qed.
Theorem C32_centred : forall a i, (i < ashape a)%nat ->
  indices_to_coordinates a (INR i) + indices_to_coordinates a (INR (ashape a - 1 - i)) = 2 * acenter a.
Proof. exact centred. Qed.
(** to_xyz lists the coordinates of the indices 0 .. n-1 of each axis *)
Theorem C32_to_xyz : forall g m a, nth_error g m = Some a ->
  exists xs, nth_error (to_xyz g) m = Some xs /\ length xs = ashape a /\
  forall i, (i < ashape a)%nat -> nth_error xs i = Some (indices_to_coordinates a (INR i)).
Proof. exact to_xyz_spec. Qed.
(** to_points lists every combination and nothing else, as many as voxels *)
Theorem C32_points : forall g,
  (forall p, In p (grid_points g) <->
     Forall2 (fun x a => exists i, (i < ashape a)%nat /\ x = indices_to_coordinates a (INR i)) p g) /\
  length (grid_points g) = fold_right (fun a n => ashape a * n)%nat 1%nat g.
Proof. intros g. exact (conj (grid_points_in g) (grid_points_length g)). Qed.
Example C32_example : let a := Axis 1 2 4 in astep a <> 0 /\ (0 < ashape a)%nat /\ get_origin a = -2 /\
  indices_to_coordinates a (1/2) = -1 /\ length (grid_points [a; Axis 0 1 1; Axis 3 1 5]) = 20%nat.
Proof.
  cbn [astep ashape]. split; [intros E; lra|]. split; [lia|]. unfold get_origin, indices_to_coordinates. cbn [acenter astep ashape INR].
  split; [lra|]. split; [lra|]. rewrite (proj2 (C32_points _)). reflexivity.
Qed.

(** ** C33 *)
(** potential adds voltage times the interpolated value to the output *)
Theorem C33_accumulates : forall g xs d a v out, has_order g d a -> shaped_rows d (length xs) out ->
  exists out', grid_potential g xs d v (Some out) = Ok out' /\ shaped_rows d (length xs) out' /\
  forall j i, (j < length xs)%nat -> (i < 2 * d + 1)%nat ->
    cell out' j i = cell out j i + v * grid_value g d i (at_ xs j).
Proof. exact grid_cells. Qed.
Theorem C33_stored : forall g d a e i j k, has_order g d a -> (e < 2 * d + 1)%nat -> spacing_ok g -> inside a i j k ->
  grid_value g d e (grid_point g i j k) = val a i j k e.
Proof. exact stored. Qed.
Theorem C33_between : forall g d a e p m M, has_order g d a -> (e < 2 * d + 1)%nat -> nonempty a ->
  (forall i j k, around (n1 a) (px (to_grid g p)) i -> around (n2 a) (py (to_grid g p)) j ->
     around (n3 a) (pz (to_grid g p)) k -> m <= val a i j k e <= M) ->
  m <= grid_value g d e p <= M.
Proof. exact between. Qed.
Theorem C33_affine : forall g d a e c cx cy cz p, has_order g d a -> (e < 2 * d + 1)%nat -> nonempty a -> spacing_ok g ->
  affine_entry g a e c cx cy cz ->
  0 <= px (to_grid g p) <= INR (n1 a) - 1 -> 0 <= py (to_grid g p) <= INR (n2 a) - 1 ->
  0 <= pz (to_grid g p) <= INR (n3 a) - 1 ->
  grid_value g d e p = c + cx * px p + cy * py p + cz * pz p.
Proof. exact affine_exact. Qed.
(** outside, the value is the one at the nearest point [q] of the grid *)
Theorem C33_clamps : forall g d a e p q, has_order g d a -> (e < 2 * d + 1)%nat -> nonempty a ->
  nearest (n1 a) (px (to_grid g p)) (px (to_grid g q)) -> nearest (n2 a) (py (to_grid g p)) (py (to_grid g q)) ->
  nearest (n3 a) (pz (to_grid g p)) (pz (to_grid g q)) ->
  grid_value g d e p = grid_value g d e q.
Proof. exact clamp_outside. Qed.
Theorem C33_linear : forall g1 g2 g3 d a1 a2 a3 e al be p,
  has_order g1 d a1 -> has_order g2 d a2 -> has_order g3 d a3 ->
  gorigin g1 = gorigin g3 -> gorigin g2 = gorigin g3 -> gspacing g1 = gspacing g3 -> gspacing g2 = gspacing g3 ->
  n1 a1 = n1 a3 -> n1 a2 = n1 a3 -> n2 a1 = n2 a3 -> n2 a2 = n2 a3 -> n3 a1 = n3 a3 -> n3 a2 = n3 a3 ->
  nonempty a3 -> (e < 2 * d + 1)%nat ->
  (forall i j k, inside a3 i j k -> val a3 i j k e = al * val a1 i j k e + be * val a2 i j k e) ->
  grid_value g3 d e p = al * grid_value g1 d e p + be * grid_value g2 d e p.
Proof. exact value_linear. Qed.

(** a 3x4x2 grid holding x + 2y - z at its voxels *)
Definition ex_arr : arr := Arr 3 4 2 1 (fun i j k _ => (1 + INR i / 2) + 2 * (INR j * 2) - INR k).
Definition ex_grid : grid_electrode := Grid [ex_arr] (P3 1 0 0) (P3 (1/2) 2 1).
Example C33_example :
  has_order ex_grid 0 ex_arr /\ nonempty ex_arr /\ spacing_ok ex_grid /\ affine_entry ex_grid ex_arr 0 0 1 2 (-1) /\
  grid_value ex_grid 0 0 (P3 (3/2 + 1/4) 1 (1/2)) = 3 + 1/4 /\
  around 3 (3/2) 1 /\ nearest 3 7 2.
Proof.
  assert (HO : has_order ex_grid 0 ex_arr) by (split; [reflexivity|cbn; lia]).
  assert (HN : nonempty ex_arr) by (repeat split; cbn; lia).
  assert (HS : spacing_ok ex_grid) by (repeat split; cbn; intros E; lra).
  assert (HA : affine_entry ex_grid ex_arr 0 0 1 2 (-1)) by (intros i j k _; cbn; lra).
  split; [exact HO|]. split; [exact HN|]. split; [exact HS|]. split; [exact HA|]. split; [|split].
  - rewrite (C33_affine ex_grid 0 ex_arr 0 0 1 2 (-1)); [cbn; lra|assumption|lia|assumption|assumption|assumption|cbn; lra..].
  - split; [lia|]. intros y [[? ?]|[[? ?]|[? ?]]]; cbn [INR] in *; try lra. subst. cbn. apply Rabs_def1; lra.
  - right. right. cbn [INR]. lra.
Qed.

(** ** C34 *)
(** geometry and existing orders are kept *)
Theorem C34_keeps : forall g m g', generate g m = Ok g' ->
  gorigin g' = gorigin g /\ gspacing g' = gspacing g /\ (exists more, gdata g' = gdata g ++ more) /\
  length (gdata g') = Nat.max (length (gdata g)) m.
Proof. exact generate_keeps. Qed.
(** consistent data: generation succeeds up to maxderiv = 6 and makes the
    orders below maxderiv available *)
Theorem C34_available_partial : forall g m, consistent g -> (m <= 6)%nat ->
  exists g', generate g m = Ok g' /\ consistent g' /\ forall d, (d < m)%nat -> exists a, has_order g' d a.
Proof. exact generate_available. Qed.
(** order maxderiv itself is never generated: asking for it raises *)
Theorem C34_refuted_maxderiv : forall g m g' p v out, generate g m = Ok g' -> (length (gdata g) <= m)%nat ->
  grid_potential g' [p] m v out = Raise IndexError.
Proof. exact generate_missing. Qed.
(** entry [i] of a generated order is the difference quotient along axis [k]
    of entry [j] below it, where the documented name of [i] is that of [j]
    with [k] added *)
Theorem C34_difference : forall g m g' d prev a i, generate g m = Ok g' -> (length (gdata g) <= d)%nat -> (1 <= d)%nat ->
  nth_error (gdata g') (d - 1) = Some prev -> nth_error (gdata g') d = Some a -> (i < 2 * d + 1)%nat ->
  exists j k s s' idx idx',
    nth_error (doc_names d) i = Some s /\ nth_error (doc_names (d - 1)) j = Some s' /\
    spells s idx /\ spells s' idx' /\ (k < 3)%nat /\ Permutation idx (k :: idx') /\
    forall u v w, inside prev u v w -> inside a u v w /\
      let f t := match k with 0%nat => val prev t v w j | 1%nat => val prev u t w j | _ => val prev u v t j end in
      let n := match k with 0%nat => n1 prev | 1%nat => n2 prev | _ => n3 prev end in
      let t := match k with 0%nat => u | 1%nat => v | _ => w end in
      let h := along k (gspacing g) in
      (2 <= n)%nat /\
      (t = 0%nat -> val a u v w i = (f 1%nat - f 0%nat) / h) /\
      (t = (n - 1)%nat -> val a u v w i = (f t - f (t - 1)%nat) / h) /\
      ((0 < t < n - 1)%nat -> val a u v w i = (f (t + 1)%nat - f (t - 1)%nat) / (2 * h)).
Proof. exact generate_difference. Qed.
(** exact for affine data: every generated entry is the slope *)
Theorem C34_affine : forall g m g' d prev a i, generate g m = Ok g' -> (length (gdata g) <= d)%nat -> (1 <= d)%nat ->
  nth_error (gdata g') (d - 1) = Some prev -> nth_error (gdata g') d = Some a -> (i < 2 * d + 1)%nat -> spacing_ok g ->
  exists j k s s' idx idx',
    nth_error (doc_names d) i = Some s /\ nth_error (doc_names (d - 1)) j = Some s' /\
    spells s idx /\ spells s' idx' /\ (k < 3)%nat /\ Permutation idx (k :: idx') /\
    forall c cx cy cz, affine_entry g prev j c cx cy cz -> forall u v w, inside a u v w ->
      val a u v w i = along k (P3 cx cy cz).
Proof. exact generate_affine. Qed.
Example C34_example : consistent ex_grid /\
  exists g' a, generate ex_grid 3 = Ok g' /\ nth_error (gdata g') 1 = Some a /\ val a 0 3 1 1 = 2.
Proof.
  split.
  { split; [discriminate|]. intros [|d] a b H Hb; [|destruct d; discriminate]. injection H as <-. injection Hb as <-. cbn. lia. }
  eexists. eexists. split; [reflexivity|]. split; [reflexivity|].
  cbn [val nth]. unfold gradient, gradient1. cbn. lra.
Qed.

Print Assumptions C32_inverse.
Print Assumptions C32_origin.
Print Assumptions C32_step.
Print Assumptions C32_centred.
Print Assumptions C32_to_xyz.
Print Assumptions C32_points.
Print Assumptions C33_accumulates.
Print Assumptions C33_stored.
Print Assumptions C33_between.
Print Assumptions C33_affine.
Print Assumptions C33_clamps.
Print Assumptions C33_linear.
Print Assumptions C34_keeps.
Print Assumptions C34_available_partial.
Print Assumptions C34_refuted_maxderiv.
Print Assumptions C34_difference.
Print Assumptions C34_affine.
