(** C64, continued: what from_gds makes of the elements of a library. *)
From Coq Require Import Permutation Sorted.
From Verif Require Import Base ModelExpr ModelField ModelLayout SpecPoly SpecLayout ProofLayout ProofLayout2 PropsLayout.
Open Scope R_scope.

(** from_gds is from_data on the boundaries, gap lines, route lines, bridge lines and texts of
    the selected structure, each on its own layers. *)
Theorem C64_read :
  forall G (sh : shapely G) (dr : drawing G) lib scale name ls stru edge buffer out, selected name (structures lib) stru ->
  from_gds sh dr lib scale name ls edge buffer = Ok out ->
  exists outlines gap_lines route_lines bridge_lines names,
  boundaries (all_or (poly_layers ls)) (physical_unit lib) scale stru outlines /\
  paths_on (all_or (gap_layers ls)) (physical_unit lib) scale stru gap_lines /\
  paths_on (fun ij => ~ all_or (gap_layers ls) ij /\ In ij (route_layers ls)) (physical_unit lib) scale stru route_lines /\
  paths_on (fun ij => ~ all_or (gap_layers ls) ij /\ ~ In ij (route_layers ls) /\ In ij (bridge_layers ls)) (physical_unit lib) scale stru bridge_lines /\
  texts_on (all_or (name_layers ls)) (physical_unit lib) scale stru names /\
  from_data sh dr outlines gap_lines route_lines bridge_lines names edge buffer = Ok out.
Proof.
  intros G sh dr lib scale name ls stru edge buffer out S E. unfold from_gds in E. destruct (gds_to_data lib scale name ls) as [d|] eqn:D; [|discriminate E]. cbn [bind] in E.
  destruct (C64_sorted _ _ _ _ _ _ S D) as (A & B & C & F & H). exists (polys d), (gaps d), (routes d), (bridges d), (labels d). tauto.
Qed.
(** So the electrodes read cover, within the square, the outlines and, if there are gaps or
    routes, what lies off the routes and off the gaps or in a cell between routes and bridges. *)
Theorem C64_covered :
  forall G X (sh : shapely G) (dr : drawing G) (pts : G -> X -> Prop) lib scale name ls stru edge buffer out, lawful sh pts -> faithful dr pts -> selected name (structures lib) stru ->
  from_gds sh dr lib scale name ls edge buffer = Ok out ->
  exists outlines gap_lines route_lines bridge_lines,
  boundaries (all_or (poly_layers ls)) (physical_unit lib) scale stru outlines /\
  paths_on (all_or (gap_layers ls)) (physical_unit lib) scale stru gap_lines /\
  paths_on (fun ij => ~ all_or (gap_layers ls) ij /\ In ij (route_layers ls)) (physical_unit lib) scale stru route_lines /\
  paths_on (fun ij => ~ all_or (gap_layers ls) ij /\ ~ In ij (route_layers ls) /\ In ij (bridge_layers ls)) (physical_unit lib) scale stru bridge_lines /\
  forall x, covered pts out x <-> pts (square dr edge) x /\
    (drawn dr pts outlines x \/
     ((gap_lines <> [] \/ route_lines <> []) /\ ~ (route_lines <> [] /\ pts (buffered dr route_lines buffer) x) /\
      (~ (gap_lines <> [] /\ pts (buffered dr gap_lines buffer) x) \/
       (route_lines <> [] /\ bridge_lines <> [] /\ exists g, In g (cells dr route_lines bridge_lines) /\ pts g x)))).
Proof.
  intros G X sh dr pts lib scale name ls stru edge buffer out L F S E. destruct (C64_read G sh dr lib scale name ls stru edge buffer out S E) as (o & g & r & b & n & A & B & C & D & _ & H).
  exists o, g, r, b. do 4 (split; [assumption|]). exact (C92_coverage G X sh dr pts L F _ _ _ _ _ _ _ _ H).
Qed.
Print Assumptions C64_read.
Print Assumptions C64_covered.

(** a library with a boundary, a gap line, a route line and a bridge line *)
Example C64_read_case :
  let stru := [Boundary (1, 0)%Z [(0, 0); (1, 0); (0, 0)] "p"; Path (2, 0)%Z [(0, 0); (1, 1)]; Path (3, 0)%Z [(0, 0); (1, 0); (2, 0)]; Path (4, 0)%Z [(0, 0); (3, 0)]; Text (5, 0)%Z [(0, 0)] "t"] in
  let lib := Library (1 / 1000) [("a"%string, []); ("b"%string, stru)] in
  selected (Some "b"%string) (structures lib) stru /\
  exists out, from_gds cells16 cells_drawing lib 2 (Some "b"%string) (Layers None (Some [(2, 0)%Z]) [(3, 0)%Z] [(4, 0)%Z] None) 40 (1 / 10) = Ok out.
Proof.
  cbv zeta. split.
  - exists [("a"%string, [])], "b"%string, []. split; [reflexivity|]. split; [reflexivity|]. intros [H|[]]. discriminate.
  - unfold from_gds. match goal with |- context [bind (gds_to_data ?l ?s ?n ?y) _] => destruct (C64_total l s n y (snd (nth 1 (structures l) (""%string, [])))) as (d & ->) end.
    + cbn [nth snd structures]. exists [("a"%string, [])], "b"%string, []. split; [reflexivity|]. split; [reflexivity|]. intros [H|[]]. discriminate.
    + cbn [nth snd structures]. intros ij s H. cbn [In] in H. repeat (destruct H as [H|H]; [discriminate H|]). destruct H.
    + cbn [bind]. apply from_data_valid. reflexivity.
Qed.
