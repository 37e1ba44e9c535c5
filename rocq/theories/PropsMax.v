(** C144: the potential of convex electrodes stays between the voltages.
    C145: the potential of a convex electrode is the Poisson integral over its inside. *)
From Coquelicot Require Import Coquelicot.
From Coq Require Import String.
From Verif Require Import Base ModelField SpecField SpecPoly SpecMax ProofMax6.
Open Scope R_scope.
Notation length := List.length.

(** Above the plane the potential of a convex polygon at 1 V is between 0 and 1, everywhere. *)
Theorem C144_convex : forall path h x y z, convex path -> 0 < z ->
  0 < value (EPolygon [path] 0 h) 0 0 (P3 x y z) < 1.
Proof. exact one_between. Qed.
Print Assumptions C144_convex.
Definition C144_square (a : R) : list p2 := [(a, 0); (a + 1, 0); (a + 1, 1); (a, 1)].
Lemma C144_square_convex a : convex (C144_square a).
Proof.
  unfold C144_square. split; [|split; [cbn; lia|]].
  - repeat constructor; cbn; intros H; repeat destruct H as [H|H]; try contradiction; injection H; intros; lra.
  - intros e v He Hv. cbn in He, Hv.
    repeat destruct He as [He|He]; try contradiction; subst e; repeat destruct Hv as [Hv|Hv]; try contradiction; subst v; cbn [fst snd];
    first [left; reflexivity|right; left; reflexivity|right; right; unfold left_of; cbn [fst snd]; lra].
Qed.
Example C144_convex_case : convex (C144_square 0).
Proof. apply C144_square_convex. Qed.

(** Below the plane it is between -1 and 0: the sign convention of the odd potential. *)
Theorem C144_convex_below : forall path h x y z, convex path -> z < 0 ->
  - (1) < value (EPolygon [path] 0 h) 0 0 (P3 x y z) < 0.
Proof. exact one_below. Qed.
Print Assumptions C144_convex_below.

(** An electrode of several convex polygons that do not overlap: again between 0 and 1. *)
Theorem C144_disjoint : forall paths h x y z, (forall P, In P paths -> convex P) ->
  ForallOrdPairs disjoint paths -> paths <> [] -> 0 < z ->
  0 < value (EPolygon paths 0 h) 0 0 (P3 x y z) < 1.
Proof. exact disjoint_between. Qed.
Print Assumptions C144_disjoint.
Lemma C144_squares_disjoint : disjoint (C144_square 0) (C144_square 1).
Proof.
  intros [x y] I1 I2. pose proof (I1 ((0 + 1, 0), (0 + 1, 1)) ltac:(cbn; tauto)) as A. pose proof (I2 ((1, 1), (1, 0)) ltac:(cbn; tauto)) as B.
  unfold left_of in A, B. cbn [fst snd] in A, B. lra.
Qed.
(** two squares with a common side *)
Example C144_disjoint_case : let paths := [C144_square 0; C144_square 1] in (forall P, In P paths -> convex P) /\ ForallOrdPairs disjoint paths.
Proof.
  split.
  - intros P [<-|[<-|[]]]; apply C144_square_convex.
  - constructor; [constructor; [exact C144_squares_disjoint|constructor]|constructor; constructor].
Qed.

(** Convex parts of a convex polygon that do not overlap contribute at most its potential. *)
Theorem C144_parts : forall paths Q h h' x y z, (forall P, In P paths -> convex P) ->
  ForallOrdPairs disjoint paths -> convex Q -> (forall P p, In P paths -> interior P p -> interior Q p) -> 0 < z ->
  value (EPolygon paths 0 h) 0 0 (P3 x y z) <= value (EPolygon [Q] 0 h') 0 0 (P3 x y z).
Proof. exact parts_le. Qed.
Print Assumptions C144_parts.
(** the two squares in the rectangle *)
Example C144_parts_case : let Q := [(0, 0); (2, 0); (2, 1); (0, 1)] in convex Q /\
  forall P p, In P [C144_square 0; C144_square 1] -> interior P p -> interior Q p.
Proof.
  cbn zeta. split.
  - split; [|split; [cbn; lia|]].
    + repeat constructor; cbn; intros H; repeat destruct H as [H|H]; try contradiction; injection H; intros; lra.
    + intros e v He Hv. cbn in He, Hv.
      repeat destruct He as [He|He]; try contradiction; subst e; repeat destruct Hv as [Hv|Hv]; try contradiction; subst v; cbn [fst snd];
      first [left; reflexivity|right; left; reflexivity|right; right; unfold left_of; cbn [fst snd]; lra].
  - intros P [x y] HP I.
    assert (B : exists a, (a = 0 \/ a = 1) /\ P = C144_square a) by (destruct HP as [<-|[<-|[]]]; [exists 0|exists 1]; split; tauto).
    destruct B as (a & Ha & ->).
    pose proof (I ((a, 1), (a, 0)) ltac:(cbn; tauto)) as I1. pose proof (I ((a, 0), (a + 1, 0)) ltac:(cbn; tauto)) as I2.
    pose proof (I ((a + 1, 0), (a + 1, 1)) ltac:(cbn; tauto)) as I3. pose proof (I ((a + 1, 1), (a, 1)) ltac:(cbn; tauto)) as I4.
    unfold left_of in *. cbn [fst snd] in *. intros e He. cbn in He. unfold left_of.
    repeat destruct He as [He|He]; try contradiction; subst e; cbn [fst snd]; destruct Ha as [->| ->]; lra.
Qed.

(** A system of such electrodes: if all voltages are between m <= 0 and M >= 0, so is
    the potential at each point above the plane, and it only reaches the bound 0. *)
Theorem C144_system : forall s t patches x y z m M, convex_system s patches -> 0 < z -> m <= 0 <= M ->
  (forall e v, In e s -> volt t e = Some v -> m <= v <= M) ->
  exists v, electrical_potential s [P3 x y z] 0 t = Ok [[v]] /\ m <= v <= M /\ (0 < M -> v < M) /\ (m < 0 -> m < v).
Proof. exact system_range. Qed.
Print Assumptions C144_system.
Definition C144_patches (e : electrode) : list (list p2) := match egeom e with EPolygon paths _ _ => paths | _ => [] end.
Example C144_system_case : convex_system [Electrode "a" 2 0 (EPolygon [C144_square 0] 0 1); Electrode "b" (-3) 0 (EPolygon [C144_square 1] 0 1)] C144_patches.
Proof.
  split; [|split].
  - intros e [<-|[<-|[]]]; exists 1; reflexivity.
  - cbn [flat_map C144_patches egeom app]. apply C144_disjoint_case.
  - cbn [flat_map C144_patches egeom app]. apply C144_disjoint_case.
Qed.

(** The vertical lines that meet no corner cut the inside of a convex polygon in an interval. *)
Theorem C145_slices : forall path, convex path ->
  exists lo hi, forall u, (forall v, In v path -> fst v <> u) -> slice_between path u (lo u) (hi u).
Proof. exact slices_exist. Qed.
Print Assumptions C145_slices.

(** The potential is the integral of the Poisson kernel over the inside of the polygon,
    whatever the values of lo and hi at the abscissae of the corners. *)
Theorem C145_poisson : forall path h x y z A B lo hi, convex path -> 0 < z ->
  (forall v, In v path -> A < fst v < B) ->
  (forall u, (forall v, In v path -> fst v <> u) -> slice_between path u (lo u) (hi u)) ->
  is_RInt (fun u => RInt (poisson (P3 x y z) u) (lo u) (hi u)) A B (value (EPolygon [path] 0 h) 0 0 (P3 x y z)).
Proof. exact poisson_int. Qed.
Print Assumptions C145_poisson.
(** a triangle *)
Example C145_poisson_case : let path := [(0, 0); (2, 0); (0, 2)] in convex path /\ (forall v, In v path -> - (1) < fst v < 3) /\
  forall u, (forall v, In v path -> fst v <> u) -> slice_between path u 0 (if Rlt_dec 0 u then Rmax 0 (2 - u) else 0).
Proof.
  cbn zeta. split; [|split].
  - split; [|split; [cbn; lia|]].
    + repeat constructor; cbn; intros H; repeat destruct H as [H|H]; try contradiction; injection H; intros; lra.
    + intros e v He Hv. cbn in He, Hv.
      repeat destruct He as [He|He]; try contradiction; subst e; repeat destruct Hv as [Hv|Hv]; try contradiction; subst v; cbn [fst snd];
      first [left; reflexivity|right; left; reflexivity|right; right; unfold left_of; cbn [fst snd]; lra].
  - intros v [<-|[<-|[<-|[]]]]; cbn; lra.
  - intros u F. pose proof (F (0, 0) ltac:(cbn; tauto)) as F0. pose proof (F (2, 0) ltac:(cbn; tauto)) as F2. cbn [fst] in F0, F2.
    split; [destruct (Rlt_dec 0 u); [apply Rmax_l|lra]|]. intros w. split.
    + intros I. pose proof (I ((0, 2), (0, 0)) ltac:(cbn; tauto)) as I1. pose proof (I ((0, 0), (2, 0)) ltac:(cbn; tauto)) as I2. pose proof (I ((2, 0), (0, 2)) ltac:(cbn; tauto)) as I3.
      unfold left_of in *. cbn [fst snd] in *. destruct (Rlt_dec 0 u); [|lra]. rewrite Rmax_right by lra. lra.
    + intros W. destruct (Rlt_dec 0 u) as [L|L]; [|lra]. assert (U : u < 2). { destruct (Rlt_or_le u 2) as [?|G]; [assumption|]. rewrite Rmax_left in W by lra. lra. }
      rewrite Rmax_right in W by lra. intros e He. cbn in He. repeat destruct He as [He|He]; try contradiction; subst e; unfold left_of; cbn [fst snd]; lra.
Qed.
