(** C162-C164: the potentials as computed with doubles.  See SpecFloat for
    what the statements mean and ModelFloat for the two kinds of doubles. *)
From Coq Require Import Permutation.
From Flocq Require Import Core.
From Verif Require Import Base ModelField ModelFloat ModelFloatExpr ModelFloatField SpecFloat
  ProofFloat ProofFloat2 ProofFloat3 ProofFloat4 ProofFloat5.
Open Scope R_scope.

(** C162: reversing every voltage reverses every computed number exactly, for
    any [pow], [atan2] and [M_PI]; underflow included. *)
Theorem C162_negated pw at2 p s xs d t :
  felectrical_potential (b64 pw at2 p) (scaled_by (-1) s) xs d t =
  times (-1) (felectrical_potential (b64 pw at2 p) s xs d t).
Proof. exact (negated pw at2 p s xs d t). Qed.
Print Assumptions C162_negated.

(** C162: multiplying every voltage by a power of two multiplies every computed
    number by it exactly, as long as nothing overflows or underflows. *)
Theorem C162_scaled pw at2 p k s xs d t :
  felectrical_potential (b64x pw at2 p) (scaled_by (powerRZ 2 k) s) xs d t =
  times (powerRZ 2 k) (felectrical_potential (b64x pw at2 p) s xs d t).
Proof. exact (scaled pw at2 p k s xs d t). Qed.
Print Assumptions C162_scaled.

(** a cover of 2 V at height 1 gives the field 2 and, reversed, -2 *)
Definition ex_cover : list electrode := [Electrode "cover" 2 0 (ECover 1)].
Example ex_162 pw at2 p : exists out,
  felectrical_potential (b64 pw at2 p) ex_cover [P3 0 0 (/ 2)] 1 TDc = Ok out /\
  cell out 0 2 = 2 /\
  felectrical_potential (b64 pw at2 p) (scaled_by (-1) ex_cover) [P3 0 0 (/ 2)] 1 TDc =
  Ok [[-1 * 0; -1 * 0; -1 * 2]].
Proof.
  assert (F : round radix2 (FLT_exp (-1074) 53) ZnearestE 2 = 2).
  { apply round_generic; [apply valid_rnd_N|]. replace 2 with (bpow radix2 1) by (cbn; lra).
    apply generic_format_bpow. vm_compute. discriminate. }
  assert (E : felectrical_potential (b64 pw at2 p) ex_cover [P3 0 0 (/ 2)] 1 TDc = Ok [[0; 0; 2]]).
  { unfold felectrical_potential. cbn [fel_loop ex_cover volt edc].
    destruct (Req_EM_T 2 0) as [N|_]; [lra|].
    cbn. replace (2 / 1) with 2 by field. rewrite F, Rplus_0_l, F. reflexivity. }
  exists [[0; 0; 2]]. split; [exact E|]. split; [reflexivity|]. rewrite negated, E. reflexivity.
Qed.

(** C163: a computed number is the sum, over the electrodes, of the voltage
    times the numbers the electrode adds at unit voltage, up to a relative
    error of one rounding per addition and ten more. *)
Theorem C163_linear pw at2 p s xs d t out j i :
  let A := b64x pw at2 p in
  felectrical_potential A s xs d t = Ok out ->
  (j < length xs)%nat -> (i < 2 * d + 1)%nat ->
  Rabs (cell out j i - superposed A xs d j i t s) <=
  gam (additions A xs d j i s + 10) * superposed_abs A xs d j i t s.
Proof. exact (linear64 pw at2 p s xs d t out j i). Qed.
Print Assumptions C163_linear.

(** C163: superposition up to rounding *)
Theorem C163_superposition pw at2 p s1 s2 s xs d t o1 o2 o j i :
  let A := b64x pw at2 p in
  adds_up t s1 s2 s ->
  felectrical_potential A s1 xs d t = Ok o1 -> felectrical_potential A s2 xs d t = Ok o2 ->
  felectrical_potential A s xs d t = Ok o ->
  (j < length xs)%nat -> (i < 2 * d + 1)%nat ->
  Rabs (cell o j i - (cell o1 j i + cell o2 j i)) <=
  gam (additions A xs d j i s + 10) *
  (superposed_abs A xs d j i t s + superposed_abs A xs d j i t s1 + superposed_abs A xs d j i t s2).
Proof. exact (superposition pw at2 p s1 s2 s xs d t o1 o2 o j i). Qed.
Print Assumptions C163_superposition.

(** C163: the order of the electrodes changes the result by rounding only *)
Theorem C163_order pw at2 p s s' xs d t o o' j i :
  let A := b64x pw at2 p in
  Permutation s s' ->
  felectrical_potential A s xs d t = Ok o -> felectrical_potential A s' xs d t = Ok o' ->
  (j < length xs)%nat -> (i < 2 * d + 1)%nat ->
  Rabs (cell o j i - cell o' j i) <=
  2 * gam (additions A xs d j i s + 10) * superposed_abs A xs d j i t s.
Proof. exact (any_order pw at2 p s s' xs d t o o' j i). Qed.
Print Assumptions C163_order.

(** a pixel of 3 V and a triangle of 5 V: two orders, four additions *)
Definition ex_pixel (v : R) : electrode := Electrode "a" v 0 (EPoint [((0, 0), 1)] 0 50).
Definition ex_tri (v : R) : electrode :=
  Electrode "b" v 0 (EPolygon [[(1, 0); (2, 0); (1, 1)]] 0 50).
Example ex_163 pw at2 p :
  let A := b64x pw at2 p in
  (exists o, felectrical_potential A [ex_pixel 3; ex_tri 5] [P3 0 0 1] 0 TDc = Ok o) /\
  (exists o, felectrical_potential A [ex_tri 5; ex_pixel 3] [P3 0 0 1] 0 TDc = Ok o) /\
  (exists o, felectrical_potential A [ex_pixel 1; ex_tri 2] [P3 0 0 1] 0 TDc = Ok o) /\
  (exists o, felectrical_potential A [ex_pixel 2; ex_tri 3] [P3 0 0 1] 0 TDc = Ok o) /\
  Permutation [ex_pixel 3; ex_tri 5] [ex_tri 5; ex_pixel 3] /\
  adds_up TDc [ex_pixel 1; ex_tri 2] [ex_pixel 2; ex_tri 3] [ex_pixel 3; ex_tri 5] /\
  additions A [P3 0 0 1] 0 0 0 [ex_pixel 3; ex_tri 5] = 4%nat.
Proof.
  assert (H : forall v u A, v <> 0 -> u <> 0 ->
    exists o, felectrical_potential A [ex_pixel v; ex_tri u] [P3 0 0 1] 0 TDc = Ok o).
  { intros v u A Hv Hu. eexists. unfold felectrical_potential. cbn [fel_loop volt edc ex_pixel ex_tri].
    destruct (Req_EM_T v 0) as [|_]; [contradiction|]. cbn [fpotential stmts egeom bind].
    destruct (Req_EM_T u 0) as [|_]; [contradiction|]. reflexivity. }
  assert (H' : forall v u A, v <> 0 -> u <> 0 ->
    exists o, felectrical_potential A [ex_tri u; ex_pixel v] [P3 0 0 1] 0 TDc = Ok o).
  { intros v u A Hv Hu. eexists. unfold felectrical_potential. cbn [fel_loop volt edc ex_pixel ex_tri].
    destruct (Req_EM_T u 0) as [|_]; [contradiction|]. cbn [fpotential stmts egeom bind existsb].
    destruct (Req_EM_T v 0) as [|_]; [contradiction|]. reflexivity. }
  intros A. split; [apply H; lra|]. split; [apply H'; lra|]. split; [apply H; lra|]. split; [apply H; lra|].
  split; [apply perm_swap|]. split; [|reflexivity].
  split; [reflexivity|]. split; [reflexivity|]. unfold adds_up, volts; cbn. repeat f_equal; lra.
Qed.

(** C164: without rounding the program computes the potentials of ModelField *)
Theorem C164_exact s xs d t :
  felectrical_potential exact s xs d t = electrical_potential s xs d t.
Proof. exact (felectrical_exact s xs d t). Qed.
Print Assumptions C164_exact.

(** C164: the potential of point pixels is computed with the relative error of
    one rounding per pixel and 21 more, compared to the sum of the absolute
    contributions *)
Theorem C164_potential pw at2 p s xs t out ref j :
  good_pow pw -> good_pi p -> pixels_only s ->
  felectrical_potential (b64x pw at2 p) s xs 0 t = Ok out -> electrical_potential s xs 0 t = Ok ref ->
  (j < length xs)%nat -> 0 < pz (at_ xs j) ->
  Rabs (cell out j 0 - cell ref j 0) <=
  gam (pixel_count s + 21) *
  pixel_total (fun v q a => Rabs (v * a) * pz (at_ xs j) / (2 * PI * dist (at_ xs j) q ^ 3)) t s.
Proof. exact (pixels_order0 pw at2 p s xs t out ref j). Qed.
Print Assumptions C164_potential.

(** C164: and its derivatives up to order 5, compared to the natural size
    [|V| a / r^(d+2)] of a derivative *)
Theorem C164_derivatives pw at2 p s xs d t out ref j i :
  good_pow pw -> good_pi p -> pixels_only s ->
  felectrical_potential (b64x pw at2 p) s xs d t = Ok out -> electrical_potential s xs d t = Ok ref ->
  (d <= 5)%nat -> (j < length xs)%nat -> (i < 2 * d + 1)%nat -> 0 < pz (at_ xs j) ->
  Rabs (cell out j i - cell ref j i) <=
  gam (pixel_count s + 83) *
  pixel_total (fun v q a => amp d * (Rabs (v * a) / (2 * PI * dist (at_ xs j) q ^ (d + 2)))) t s.
Proof. exact (pixels_orders pw at2 p s xs d t out ref j i). Qed.
Print Assumptions C164_derivatives.

(** two pixels of 1 V and -2 V; the exact functions of the C library are good *)
Example ex_164 d A :
  good_pow pow /\ good_pi PI /\ pixels_only [ex_pixel 1; ex_pixel (-2)] /\
  (exists out, felectrical_potential A [ex_pixel 1; ex_pixel (-2)] [P3 3 0 4] d TDc = Ok out) /\
  (exists ref, electrical_potential [ex_pixel 1; ex_pixel (-2)] [P3 3 0 4] d TDc = Ok ref) /\
  pixel_count [ex_pixel 1; ex_pixel (-2)] = 2%nat /\ dist (P3 3 0 4) (0, 0) = 5.
Proof.
  pose proof u_pos as U. pose proof PI_RGT_0 as P.
  split; [|split; [|split; [|split; [|split; [|split]]]]].
  - intros x n. rewrite Rminus_diag_eq, Rabs_R0 by reflexivity. pose proof (Rabs_pos (x ^ n)). nra.
  - unfold good_pi. rewrite Rminus_diag_eq, Rabs_R0 by reflexivity. nra.
  - repeat constructor; do 2 eexists; reflexivity.
  - eexists. unfold felectrical_potential. cbn [fel_loop volt edc ex_pixel].
    destruct (Req_EM_T 1 0) as [|_]; [lra|]. cbn [fpotential stmts egeom bind].
    destruct (Req_EM_T (-2) 0) as [|_]; [lra|]. reflexivity.
  - eexists. unfold electrical_potential. cbn [el_loop volt edc ex_pixel].
    destruct (Req_EM_T 1 0) as [|_]; [lra|]. cbn [potential egeom bind].
    destruct (Req_EM_T (-2) 0) as [|_]; [lra|]. reflexivity.
  - reflexivity.
  - unfold dist; cbn [px py pz fst snd].
    replace ((3 - 0) ^ 2 + (0 - 0) ^ 2 + 4 ^ 2) with (5 * 5) by lra. apply sqrt_square; lra.
Qed.
