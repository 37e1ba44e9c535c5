(** C178: the potential is the one with the voltages on the electrodes and 0 on
    the rest of the plane. *)
From Coquelicot Require Import Coquelicot.
From Verif Require Import Base ModelExpr ModelUtils ModelField ModelGeom SpecField SpecPoly SpecMax SpecTile SpecEarnshaw SpecCover SpecDirichlet PropsMax PropsCentre PropsCover PropsCover2 ProofCentre ProofPoly3 ProofDirichlet2 ProofCover4.
Import ListNotations.
Open Scope R_scope.

(** The potential of the system is one: *)
Theorem C178_solves : forall s parts t, tiled_system s parts -> potential_above s parts t (tensor_entry s t 0 []).
Proof. exact plain_solves. Qed.
Print Assumptions C178_solves.

(** there is no other, and System.electrical_potential returns it, *)
Theorem C178_result : forall s parts t u p, tiled_system s parts -> potential_above s parts t u -> 0 < pz p ->
  electrical_potential s [p] 0 t = Ok [[u p]].
Proof. exact plain_result. Qed.
Print Assumptions C178_result.

(** and its gradient. *)
Theorem C178_field : forall s parts t u p k, tiled_system s parts -> potential_above s parts t u -> 0 < pz p -> (k < 3)%nat ->
  partial u k p (tensor_entry s t 1 [k] p).
Proof. exact plain_field. Qed.
Print Assumptions C178_field.

(** MeshPixelElectrode.from_polygon_system makes of the electrodes one electrode
    with the same potential. *)
Theorem C178_mesh : forall s parts u p, tiled_system s parts -> potential_above s parts TDc u -> 0 < pz p ->
  exists m, from_polygon_system s = Ok m /\ electrical_potential [m] [p] 0 TDc = Ok [[u p]].
Proof.
  intros s parts u p T U Hp. destruct (from_polygons s [p] 0) as (m & pot & M & E & E').
  - intros e He. destruct (proj1 T e He) as (paths & h & G & W & _). unfold polygon_electrode, no_cover. rewrite G.
    split; [exact I|]. split; [exact W|reflexivity].
  - exists m. split; [exact M|]. rewrite E, <- E'. exact (plain_result s parts TDc u p T U Hp).
Qed.
Print Assumptions C178_mesh.

(** Below a cover there is exactly one such potential, *)
Theorem C178_under : forall h area s parts t, 0 < h -> covered_system h area s parts ->
  (exists u, potential_under h s parts t u) /\
  forall u v p, potential_under h s parts t u -> potential_under h s parts t v -> 0 < pz p < h -> u p = v p.
Proof. intros h area s parts t H C. split; [exact (under_exists h area s parts t H C)|intros u v p; exact (under_unique h area s parts t u v p H C)]. Qed.
Print Assumptions C178_under.

(** it is what System.electrical_potential returns with [n] images, up to: *)
Theorem C178_error : forall h area s parts t u p n, 0 < h -> covered_system h area s parts -> potential_under h s parts t u ->
  0 < pz p < h -> (1 <= n)%nat ->
  Rabs (tensor_entry (with_images n h s) t 0 [] p - u p) <=
    sum_over s (fun e => Rabs (voltage t e) * area e) * pz p / (8 * PI * h ^ 3 * INR n ^ 2).
Proof. exact under_error. Qed.
Print Assumptions C178_error.

(** and the gradient converges to that of [u]. *)
Theorem C178_under_field : forall h area s parts t u p k, 0 < h -> covered_system h area s parts -> potential_under h s parts t u ->
  0 < pz p < h -> (k < 3)%nat ->
  exists l : R, partial u k p l /\ is_lim_seq (fun n => tensor_entry (with_images n h s) t 1 [k] p) l.
Proof. exact under_field. Qed.
Print Assumptions C178_under_field.

(** a square frame at 2 V around an electrode at -3 V: the potential just above the
    inner one, above the frame and far out in the plane *)
Example ex_178 : let s := [Electrode "a" 2 0 (EPolygon frame 0 1); Electrode "b" (-3) 0 (EPolygon [hole] 0 1)] in
  let parts := fun e => if String.eqb (ename e) "a" then frame_parts else [hole] in
  tiled_system s parts /\
  approaches (tensor_entry s TDc 0 []) (P3 (3 / 2) (3 / 2) 0) (-3) /\
  approaches (tensor_entry s TDc 0 []) (P3 (3 / 2) (1 / 2) 0) 2 /\
  approaches (tensor_entry s TDc 0 []) (P3 10 10 0) 0.
Proof.
  cbv zeta. pose proof ex_158_system as [T _]. cbv zeta in T. split; [exact T|].
  destruct (C178_solves _ _ TDc T) as (_ & _ & I & O).
  split; [|split].
  - apply (I (Electrode "b" (-3) 0 (EPolygon [hole] 0 1)) hole (3 / 2, 3 / 2)); [right; left; reflexivity|left; reflexivity|].
    intros e He. cbn in He. repeat destruct He as [He|He]; try contradiction; subst e; unfold left_of; cbn [fst snd]; lra.
  - apply (I (Electrode "a" 2 0 (EPolygon frame 0 1)) [(0, 0); (3, 0); (2, 1); (1, 1)] (3 / 2, 1 / 2)); [left; reflexivity|left; reflexivity|].
    intros e He. cbn in He. repeat destruct He as [He|He]; try contradiction; subst e; unfold left_of; cbn [fst snd]; lra.
  - apply (O (10, 10)). intros e P [<-|[<-|[]]] HP; cbn in HP; repeat destruct HP as [HP|HP]; try contradiction; subst P.
    + exists ((3, 0), (2, 1)). split; [cbn; tauto|]. unfold left_of. cbn [fst snd]. lra.
    + exists ((3, 0), (3, 3)). split; [cbn; tauto|]. unfold left_of. cbn [fst snd]. lra.
    + exists ((3, 3), (0, 3)). split; [cbn; tauto|]. unfold left_of. cbn [fst snd]. lra.
    + exists ((1, 1), (1, 2)). split; [cbn; tauto|]. unfold left_of. cbn [fst snd]. lra.
    + exists ((2, 1), (2, 2)). split; [cbn; tauto|]. unfold left_of. cbn [fst snd]. lra.
Qed.
(** the L at -1 V, a unit square beside it at 3 V and a cover at height 50 at -2 V *)
Example ex_178_under : let s := [Electrode "a" 3 0 (EPolygon [C144_square 2] 0 50); Electrode "b" (-1) 0 (EPolygon [ell] 0 50); Electrode "cover" (-2) 0 (ECover 50)] in
  let area := fun e => match egeom e with EPolygon [[_; _; _; _]] _ _ => 1 | EPolygon _ _ _ => 3 | _ => 0 end in
  let parts := fun e => if String.eqb (ename e) "a" then [C144_square 2] else if String.eqb (ename e) "b" then [[(0, 0); (2, 0); (2, 1); (1, 1)]; [(0, 0); (1, 1); (1, 2); (0, 2)]] else [] in
  covered_system 50 area s parts.
Proof.
  cbv zeta. pose proof ex_176 as (_ & L & _). pose proof (C144_square_convex 2) as C. split; [|split].
  - intros e [<-|[<-|[<-|[]]]]; [left|left; exact L|right; split; reflexivity]. split; [intros P [<-|[]]; exists [C144_square 2]; left; apply convex_tiled, C|].
    unfold sum_over. cbn [map sumR]. rewrite (proj1 (C157_square 2)). cbn [fst egeom C144_square]. rewrite Rabs_R1. ring.
  - intros e [<-|[<-|[<-|[]]]]; cbn [ename String.eqb Ascii.eqb Bool.eqb egeom]; [left|left|right; split; reflexivity].
    + exists [C144_square 2], 0%Z, 50. split; [reflexivity|]. apply convex_tiled, C.
    + exists [ell], 0%Z, 50. split; [reflexivity|]. apply ex_158_ell.
  - cbn [flat_map ename String.eqb Ascii.eqb Bool.eqb app]. unfold C144_square. repeat constructor; apart_by_hand.
Qed.
