(** C175: the rounding error of the potential of a system of any electrodes.
    See SpecFloat and SpecFloat2 for what the statements mean. *)
From Verif Require Import Base ModelField ModelFloat ModelFloatField SpecFloat SpecFloat2 ProofFloat2 ProofFloat6 ProofFloat7.
Import ListNotations.
Open Scope R_scope.

(** C175: above the plane and without images in the cover, the potential
    computed with doubles differs from the potential in the real numbers by
    one rounding for every addition and 21 more, compared to the sum of the
    sizes of what is added: a side of an electrode at voltage [V] counts with
    [17 |V|] times the distance of its nearer end over the height. *)
Theorem C175_potential pw at2 p s xs t out ref j :
  good_pow pw -> good_pi p -> good_atan2 at2 -> no_images s ->
  felectrical_potential (b64x pw at2 p) s xs 0 t = Ok out -> electrical_potential s xs 0 t = Ok ref ->
  (j < length xs)%nat -> 0 < pz (at_ xs j) ->
  Rabs (cell out j 0 - cell ref j 0) <=
  gam (size_count (at_ xs j) s + 21) * size_total t (at_ xs j) s.
Proof. intros Hw Hp Ha. exact (any_potential pw at2 p Hw Hp Ha s xs t out ref j). Qed.
Print Assumptions C175_potential.

(** C175: the factor is at most two units of rounding for each of them *)
Theorem C175_roundings n : INR n * u64 <= 1 -> gam n <= 2 * (INR n * u64).
Proof. exact (gam_linear n). Qed.
Print Assumptions C175_roundings.

(** C175: in plain numbers: with a million additions at most, the error is
    below 3e-10 of the sizes *)
Theorem C175_million pw at2 p s xs t out ref j :
  good_pow pw -> good_pi p -> good_atan2 at2 -> no_images s ->
  felectrical_potential (b64x pw at2 p) s xs 0 t = Ok out -> electrical_potential s xs 0 t = Ok ref ->
  (j < length xs)%nat -> 0 < pz (at_ xs j) ->
  (size_count (at_ xs j) s <= 10 ^ 6)%nat ->
  Rabs (cell out j 0 - cell ref j 0) <= 3 / 10 ^ 10 * size_total t (at_ xs j) s.
Proof. intros Hw Hp Ha. exact (million pw at2 p Hw Hp Ha s xs t out ref j). Qed.
Print Assumptions C175_million.

(** a pixel, a triangle, a mesh of one edge and a cover, seen from [(0, 0, 4)];
    the exact functions of the C library are good *)
Definition ex_all : list electrode :=
  [Electrode "a" 3 0 (EPoint [((3, 0), 1)] 0 50);
   Electrode "b" (-5) 0 (EPolygon [[(3, 0); (0, 3); (-3, 0)]] 0 50);
   Electrode "c" 1 0 (EMesh [(3, 0); (0, 3)] [((0, 1), 0)]%nat [2] 0 50);
   Electrode "d" 2 0 (ECover 8)].
Example ex_175 A :
  good_pow pow /\ good_pi PI /\ good_atan2 (fun y x => atan (y / x)) /\ no_images ex_all /\
  (exists out, felectrical_potential A ex_all [P3 0 0 4] 0 TDc = Ok out) /\
  (exists ref, electrical_potential ex_all [P3 0 0 4] 0 TDc = Ok ref) /\
  size_count (P3 0 0 4) ex_all = 6%nat /\
  side_size (P3 0 0 4) (3, 0) (0, 3) = 17 * 5 / 4.
Proof.
  pose proof u_pos as U. pose proof PI_RGT_0 as P.
  split; [|split; [|split; [|split; [|split; [|split; [|split]]]]]].
  - intros x n. rewrite Rminus_diag_eq, Rabs_R0 by reflexivity. pose proof (Rabs_pos (x ^ n)). nra.
  - unfold good_pi. rewrite Rminus_diag_eq, Rabs_R0 by reflexivity. nra.
  - intros y x. pose proof (atan_bound (y / x)). pose proof PI_4. split; [apply Rabs_le; lra|]. intros _.
    rewrite Rminus_diag_eq, Rabs_R0 by reflexivity. pose proof (Rabs_pos (atan (y / x))). nra.
  - repeat constructor.
  - eexists. unfold felectrical_potential. cbn [fel_loop ex_all volt edc].
    repeat (destruct (Req_EM_T _ 0); [lra|]; cbn [fpotential stmts egeom bind existsb mesh_ok]).
    reflexivity.
  - eexists. unfold electrical_potential. cbn [el_loop ex_all volt edc].
    repeat (destruct (Req_EM_T _ 0); [lra|]; cbn [potential egeom bind existsb mesh_ok]).
    reflexivity.
  - reflexivity.
  - assert (D : forall a b, a * a + b * b = 9 -> dist (P3 0 0 4) (a, b) = 5).
    { intros a b H. unfold dist. cbn [px py pz fst snd]. replace ((0 - a) ^ 2 + (0 - b) ^ 2 + 4 ^ 2) with (5 ^ 2) by nra.
      apply sqrt_pow2. lra. }
    unfold side_size. rewrite !D by lra. rewrite Rmin_left by lra. reflexivity.
Qed.
