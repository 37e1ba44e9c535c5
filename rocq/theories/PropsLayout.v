(** C58-C65, C92-C94 *)
From Coq Require Import Permutation Sorted.
From Verif Require Import Base ModelExpr ModelField ModelLayout SpecPoly SpecLayout ProofLayout ProofLayout2.
Open Scope R_scope.
Notation length := List.length.

(** *** the examples' geometries: sets of the unit cells 0..15 *)
Definition cells16 : shapely (nat -> bool) :=
  Shapely _ (fun a b x => a x && b x)%bool (fun a b x => a x || b x)%bool (fun a b x => a x && negb (b x))%bool
    (fun a => INR (length (filter a (seq 0 16)))) (fun _ => true) (fun _ => false).
Definition cell_in (a : nat -> bool) (x : nat) : Prop := a x = true.
Lemma cells16_lawful : lawful cells16 cell_in.
Proof.
  constructor; unfold cell_in; cbn [cells16 inter union diff area is_valid empty].
  - intros. apply andb_true_iff.
  - intros. apply orb_true_iff.
  - intros. rewrite andb_true_iff, negb_true_iff, not_true_iff_false. tauto.
  - discriminate.
  - intros a x. destruct (a x); auto.
  - intros a b H. apply le_INR. generalize (seq 0 16). intros l.
    induction l as [|x l IH]; [auto|]. cbn [filter]. destruct (a x) eqn:E; [rewrite (H x E); cbn; lia|]. destruct (b x); cbn; lia.
  - assert (E : forall l : list nat, filter (fun _ => false) l = []) by (intros l; induction l; auto). now rewrite E.
  - reflexivity.
Qed.
Definition run (lo hi : nat) : nat -> bool := fun x => ((lo <=? x) && (x <? hi))%nat.
(** a path of m points stands for the cells 0..m-1, a buffered set of paths
    for the last cells of the paths, the square is 0..11 *)
Definition cells_drawing : drawing (nat -> bool) :=
  Drawing _ (fun _ => run 0 12) (fun ps _ x => existsb (fun p => Nat.eqb x (length p)) ps)
    (fun rs bs => map (fun r => run 0 (length r)) rs) (fun p => [run 0 (length p)])
    (fun a => a) (fun a => [a]) (fun _ a => a) (fun p a => a 0%nat).
Example cells_drawing_faithful : faithful cells_drawing cell_in.
Proof.
  constructor; cbn; try reflexivity. intros a x. split; [intros H; exists a; auto|]. intros (b & [->|[]] & H). exact H.
Qed.

(** C58 *)
Theorem C58_assign_to_pad :
  forall P G (hits : P -> G -> bool) (self : list (string * G)) (pads : list P) (dp : P) (dg : string * G),
  exists matched rest, pad_assignment (fun k i => hits (nth k pads dp) (snd (nth i self dg)))
    (length pads) (length self) (assign_to_pad hits self pads) matched rest.
Proof. exact @assign_spec. Qed.
Print Assumptions C58_assign_to_pad.
Example C58_case :
  assign_to_pad (fun (p : nat) (g : list nat) => existsb (Nat.eqb p) g) [("a"%string, [1; 2]); ("b"%string, [2]); ("c"%string, [3])]%nat [2; 9; 2; 1]%nat =
  [(Some 0, 0); (Some 2, 1); (None, 2)]%nat.
Proof. reflexivity. Qed.

(** C59 *)
Theorem C59_every_fragment_once :
  forall G (hits : p2 -> G -> bool) fragments names, Permutation (map snd (name_fragments hits fragments names)) (map snd fragments).
Proof. exact @name_perm. Qed.
Print Assumptions C59_every_fragment_once.
Theorem C59_labels :
  forall G (hits : p2 -> G -> bool) fragments names (dn : string * p2) (dg : string * G), names <> [] ->
  exists matched rest, pad_assignment (fun k i => hits (snd (nth k names dn)) (snd (nth i fragments dg)))
    (length names) (length fragments) (assign_to_pad hits fragments (map snd names)) matched rest /\
  name_fragments hits fragments names =
  map (fun ki => (fst (nth (fst ki) names dn), snd (nth (snd ki) fragments dg))) matched ++ map (fun i => nth i fragments dg) rest.
Proof. exact @name_spec. Qed.
Print Assumptions C59_labels.
Example C59_case :
  name_fragments (fun (p : p2) (g : bool) => g) [("old", false); ("", true)]%string [("new", (0, 0)); ("unused", (0, 0))]%string = [("new", true); ("old", false)]%string.
Proof. reflexivity. Qed.

(** C60: n pads per edge; edge number s starts in corner s + start_corner *)
Theorem C60_pads :
  forall step edge (odd : bool) start_corner, 0 < step -> 0 <= edge -> (-4 <= start_corner <= 4)%Z ->
  exists pads n m, square_pads step edge odd start_corner = Ok pads /\ INR m * step <= edge < (INR m + 1) * step /\
  n = (if odd then if Nat.even m then m + 1 else m + 2 else m)%nat /\ length pads = (4 * n)%nat /\
  forall s k, (s < 4)%nat -> (k < n)%nat -> exists a, Z.of_nat a = ((Z.of_nat s + start_corner) mod 4)%Z /\
    nth_error pads (s * n + k) = Some (quarters a (- (edge / 2 - step / 2), ((INR n - 1) / 2 - INR k) * step)).
Proof. exact square_pads_spec. Qed.
Print Assumptions C60_pads.
Theorem C60_inside_partial :
  forall step edge start_corner, 0 < step -> step <= edge -> (-4 <= start_corner <= 4)%Z ->
  exists pads, square_pads step edge false start_corner = Ok pads /\
  forall p, In p pads -> Rmax (Rabs (fst p)) (Rabs (snd p)) = edge / 2 - step / 2.
Proof. exact square_pads_inside. Qed.
Print Assumptions C60_inside_partial.
(** with odd=True there always is a pad outside *)
Theorem C60_refuted_odd :
  forall step edge start_corner, 0 < step -> 0 <= edge -> (-4 <= start_corner <= 4)%Z ->
  exists pads p, square_pads step edge true start_corner = Ok pads /\ In p pads /\
  edge / 2 - step / 2 < Rmax (Rabs (fst p)) (Rabs (snd p)).
Proof. exact square_pads_odd_outside. Qed.
Print Assumptions C60_refuted_odd.
(** step and edge of opposite signs *)
Theorem C60_opposite :
  forall step edge (odd : bool) start_corner, step * edge < 0 ->
  ((exists pads, square_pads step edge odd start_corner = Ok pads) <-> Rabs edge < (if odd then 2 else 1) * Rabs step) /\
  (square_pads step edge odd start_corner = Raise AssertionError <-> (if odd then 2 else 1) * Rabs step <= Rabs edge).
Proof. exact square_pads_opposite. Qed.
Print Assumptions C60_opposite.
Example C60_case_opposite : -10 * 15 < 0 /\ Rabs 15 < 2 * Rabs (-10).
Proof. rewrite (Rabs_left (-10)), (Rabs_pos_eq 15) by lra. lra. Qed.
Example C60_case : 0 < 10 /\ 10 <= 200 /\ (-4 <= 1 <= 4)%Z.
Proof. split; [lra|]. split; [lra|]. lia. Qed.

(** C61 *)
Theorem C61_remove_overlaps :
  forall G X (sh : shapely G) (pts : G -> X -> Prop), lawful sh pts ->
  forall self, let out := remove_overlaps sh self in
  map fst out = map fst self /\ Forall2 (fun a b => forall x, pts (snd a) x -> pts (snd b) x) out self /\
  (forall x, covered pts out x <-> covered pts self x) /\
  (forall i j da, (i < j < length out)%nat -> area sh (inter sh (snd (nth i out da)) (snd (nth j out da))) <= / 2 ^ 23).
Proof. exact @overlaps_spec. Qed.
Print Assumptions C61_remove_overlaps.
(** cells 2..4 of the second are taken by the first *)
Example C61_case : lawful cells16 cell_in /\
  map (fun nb => map (snd nb) (seq 0 8)) (remove_overlaps cells16 [("a", run 0 5); ("b", run 2 7)]%string) =
  [map (run 0 5) (seq 0 8); map (run 5 7) (seq 0 8)].
Proof.
  split; [exact cells16_lawful|]. unfold remove_overlaps. cbn [fold_left overlap_step cells16 inter union diff area is_valid empty andb app fst].
  assert (0 < float32_eps < 1) as [H1 H2] by (unfold float32_eps; lra).
  destruct (Rlt_dec float32_eps _) as [H|H]; [exfalso; cbn in H; lra|].
  destruct (Rlt_dec float32_eps _) as [H'|H']; [reflexivity|]. exfalso. apply H'. cbn. lra.
Qed.

(** C62 *)
Theorem C62_from_system :
  forall G contains ok (uu : list polygon -> G) system,
  from_system contains ok uu system =
  flat_map (fun e => match egeom e with
    | EPolygon paths _ _ => if existsb is_ccw paths then [(ename e, uu (filter ok (contours contains paths)))] else []
    | _ => [] end) system.
Proof. exact @from_system_spec. Qed.
Print Assumptions C62_from_system.
Theorem C62_contours :
  forall contains paths, let gs := contours contains paths in
  Permutation (map exterior gs) (filter is_ccw paths) /\
  StronglySorted (fun a b => size a <= size b) (map exterior gs) /\
  exists free, Permutation (flat_map interiors gs ++ free) (filter is_cw paths) /\
  (forall it, In it free -> forall e, In e paths -> ccw_path e -> ~ encloses contains e it) /\
  forall g it, In g gs -> In it (interiors g) -> encloses contains (exterior g) it /\
    forall e, In e paths -> ccw_path e -> encloses contains e it -> size (exterior g) <= size e.
Proof. exact contours_spec. Qed.
Print Assumptions C62_contours.
Example C62_case : let a := [(0, 0); (1, 0); (0, 1)] in let b := [(0, 0); (0, 1); (1, 0)] in ccw_path a /\ cw_path b.
Proof. unfold ccw_path, cw_path, signed_area, SpecField.sum_over, SpecField.edges_of, cross2. cbn. split; lra. Qed.

(** C63 *)
Theorem C63_to_system :
  forall ccw ok self, (forall n p, In (n, p) (flat self) -> ok p = true -> proper_rings ccw p) ->
  Forall2 (fun e np => ename e = fst np /\ exists groups h n, egeom e = EPolygon (concat groups) h n /\
      Forall2 (fun g p => (ok p = false -> g = []) /\ (ok p = true -> paths_for p g)) groups (geoms (snd np)))
    (to_system ccw ok self) self.
Proof. exact to_system_spec. Qed.
Print Assumptions C63_to_system.
Example C63_case : proper_rings is_ccw (Polygon [(0, 0); (3, 0); (0, 3); (0, 0)] [[(1, 1); (1, 3/2); (3/2, 1); (1, 1)]]).
Proof.
  intros r [<-|[<-|[]]].
  - split; [exists (0, 0), [(3, 0); (0, 3)]; reflexivity|].
    match goal with |- context [signed_area ?l] => assert (E : signed_area l = 9 / 2) by (unfold signed_area, SpecField.sum_over, SpecField.edges_of, cross2; cbn; lra) end.
    unfold is_ccw. rewrite E. split; [|lra]. destruct (Rlt_dec 0 (9 / 2)); [split; intros; [lra|reflexivity]|lra].
  - split; [exists (1, 1), [(1, 3/2); (3/2, 1)]; reflexivity|].
    match goal with |- context [signed_area ?l] => assert (E : signed_area l = - 1 / 8) by (unfold signed_area, SpecField.sum_over, SpecField.edges_of, cross2; cbn; lra) end.
    unfold is_ccw. rewrite E. split; [|lra]. destruct (Rlt_dec 0 (- 1 / 8)); [lra|split; intros; [discriminate|lra]].
Qed.

(** C64 *)
Theorem C64_sorted :
  forall lib scale name ls stru d, selected name (structures lib) stru -> gds_to_data lib scale name ls = Ok d ->
  boundaries (all_or (poly_layers ls)) (physical_unit lib) scale stru (polys d) /\
  paths_on (all_or (gap_layers ls)) (physical_unit lib) scale stru (gaps d) /\
  paths_on (fun ij => ~ all_or (gap_layers ls) ij /\ In ij (route_layers ls)) (physical_unit lib) scale stru (routes d) /\
  paths_on (fun ij => ~ all_or (gap_layers ls) ij /\ ~ In ij (route_layers ls) /\ In ij (bridge_layers ls)) (physical_unit lib) scale stru (bridges d) /\
  texts_on (all_or (name_layers ls)) (physical_unit lib) scale stru (labels d).
Proof. exact gds_spec. Qed.
Print Assumptions C64_sorted.
Theorem C64_total :
  forall lib scale name ls stru, selected name (structures lib) stru ->
  (forall ij s, In (Text ij [] s) stru -> ~ all_or (name_layers ls) (fst ij)) -> exists d, gds_to_data lib scale name ls = Ok d.
Proof. exact gds_total. Qed.
Print Assumptions C64_total.
(** a name that no structure has selects the last structure *)
Theorem C64_refuted_missing_name :
  forall lib scale m ls, ~ In m (map fst (structures lib)) ->
  gds_to_data lib scale (Some m) ls =
  match structures lib with
  | [] => Raise UnboundLocalError
  | l => gds_to_data (Library (physical_unit lib) [last l (""%string, [])]) scale None ls
  end.
Proof. exact gds_missing. Qed.
Print Assumptions C64_refuted_missing_name.
(** without gap_layers, the default, route_layers and bridge_layers have no effect *)
Theorem C64_refuted_routes :
  forall lib scale name ls stru d, selected name (structures lib) stru -> gds_to_data lib scale name ls = Ok d ->
  gap_layers ls = None -> routes d = [] /\ bridges d = [].
Proof. exact gds_routes_lost. Qed.
Print Assumptions C64_refuted_routes.
Example C64_case :
  selected (Some "b"%string) [("a"%string, []); ("b"%string, [OtherElement; Path (1, 0)%Z [(0, 0); (1, 1)]]); ("b"%string, [])] [OtherElement; Path (1, 0)%Z [(0, 0); (1, 1)]].
Proof. exists [("a"%string, [])], "b"%string, [("b"%string, [])]. split; [reflexivity|]. split; [reflexivity|]. intros [H|[]]. discriminate. Qed.

(** C65 *)
Theorem C65_unify_by_name :
  forall G (uu : list G -> G) self,
  unify_by_name uu self = map (fun n => (n, uu (with_name n self))) (firsts [] (map fst self)).
Proof. exact @unify_by_name_spec. Qed.
Print Assumptions C65_unify_by_name.
Theorem C65_names_once :
  forall l, NoDup (firsts [] l) /\ forall n, In n (firsts [] l) <-> In n l.
Proof. intros l. split; [apply firsts_nodup|]. intros n. rewrite firsts_in. split; [intros [H _]; exact H|intros H; split; [exact H|intros []]]. Qed.
Print Assumptions C65_names_once.
Theorem C65_filter :
  forall test self,
  flat (filter_flat test self) = filter (fun np => test (fst np) (snd np)) (flat self) /\
  map fst (filter_flat test self) = map fst (filter (fun np => existsb (test (fst np)) (geoms (snd np))) self).
Proof. exact filter_flat_spec. Qed.
Print Assumptions C65_filter.
Theorem C65_filter_deep :
  forall test self,
  flat (filter_deep test self) = map (trim_holes test) (filter (fun np => test (fst np) (exterior (snd np))) (flat self)) /\
  map fst (filter_deep test self) = map fst (filter (fun np => existsb (fun p => test (fst np) (exterior p)) (geoms (snd np))) self).
Proof. exact filter_deep_spec. Qed.
Print Assumptions C65_filter_deep.
(** the default test: boundaries around an area of more than 0.01 are kept,
    whatever their orientation *)
Theorem C65_default_deep :
  forall area self, let out := filter_deep (default_test area) self in
  (forall n p', In (n, p') (flat out) -> exists p, In (n, p) (flat self) /\ exterior p' = exterior p /\ 1 / 100 < Rabs (area (exterior p)) /\
     forall h, In h (interiors p') <-> In h (interiors p) /\ 1 / 100 < Rabs (area h)) /\
  (forall n p, In (n, p) (flat self) -> 1 / 100 < Rabs (area (exterior p)) -> exists p', In (n, p') (flat out) /\ exterior p' = exterior p).
Proof.
  intros area self out. unfold out. rewrite (proj1 (C65_filter_deep (default_test area) self)).
  assert (D : forall n b, default_test area n b = true <-> 1 / 100 < Rabs (area b)).
  { intros n b. unfold default_test. destruct (Rlt_dec (1 / 100) (Rabs (area b))); split; intros; first [assumption|reflexivity|discriminate|contradiction]. }
  split.
  - intros n p' H. apply in_map_iff in H. destruct H as ([m p] & E & K). apply filter_In in K. destruct K as [K T]. cbn [fst snd] in T. apply D in T.
    unfold trim_holes in E. cbn [fst snd] in E. injection E as <- <-. exists p. split; [exact K|]. split; [reflexivity|]. split; [exact T|].
    intros h. cbn [interiors]. rewrite filter_In, D. reflexivity.
  - intros n p K T. eexists. split; [apply in_map_iff; exists (n, p); split; [reflexivity|apply filter_In; split; [exact K|now apply D]]|reflexivity].
Qed.
Print Assumptions C65_default_deep.
(** the documented default filter(test=None, deep=False) fails *)
Theorem C65_refuted_default : forall n p r, filter_flat_none ((n, Single p) :: r) = Raise TypeError.
Proof. reflexivity. Qed.
Print Assumptions C65_refuted_default.
Example C65_case : unify_by_name (@concat nat) [("a"%string, [1; 2]); ("b"%string, [3]); ("a"%string, [4])]%nat = [("a"%string, [1; 2; 4]); ("b"%string, [3])]%nat.
Proof. reflexivity. Qed.

(** C92 *)
Theorem C92_coverage :
  forall G X (sh : shapely G) (dr : drawing G) (pts : G -> X -> Prop), lawful sh pts -> faithful dr pts ->
  forall polys gaps routes bridges names edge buffer out,
  from_data sh dr polys gaps routes bridges names edge buffer = Ok out ->
  forall x, covered pts out x <-> pts (square dr edge) x /\
    (drawn dr pts polys x \/
     ((gaps <> [] \/ routes <> []) /\ ~ (routes <> [] /\ pts (buffered dr routes buffer) x) /\
      (~ (gaps <> [] /\ pts (buffered dr gaps buffer) x) \/
       (routes <> [] /\ bridges <> [] /\ exists g, In g (cells dr routes bridges) /\ pts g x)))).
Proof. exact @from_data_cover. Qed.
Print Assumptions C92_coverage.
Theorem C92_parts :
  forall G X (sh : shapely G) (dr : drawing G) (pts : G -> X -> Prop), lawful sh pts -> faithful dr pts ->
  forall polys gaps routes bridges names edge buffer out,
  from_data sh dr polys gaps routes bridges names edge buffer = Ok out ->
  exists rest, Permutation (map snd out) (map snd (pieces sh dr (square dr edge) polys) ++ rest) /\
  (names = [] -> out = pieces sh dr (square dr edge) polys ++ map (fun g => (""%string, g)) rest) /\
  forall g x, In g rest -> pts g x -> ~ drawn dr pts polys x.
Proof. exact @from_data_parts. Qed.
Print Assumptions C92_parts.
Example C92_case : lawful cells16 cell_in /\ faithful cells_drawing cell_in /\
  exists out, from_data cells16 cells_drawing [("p"%string, [(0, 0); (1, 0); (0, 0)])] [[(0, 0); (1, 0); (1, 1); (2, 2)]] [] [] [] 40 (1 / 10) = Ok out /\
  map (fun nb => (fst nb, map (snd nb) (seq 0 8))) out =
  [("p", map (run 0 3) (seq 0 8)); ("", [false; false; false; true; false; true; true; true])]%string.
Proof.
  split; [exact cells16_lawful|]. split; [exact cells_drawing_faithful|]. eexists. split; [reflexivity|]. reflexivity.
Qed.
(** without gaps and routes the square outside the polygons is not covered,
    although from_data documents that all of it is *)
Theorem C92_refuted_all_area :
  exists sh dr (pts : (nat -> bool) -> nat -> Prop), lawful sh pts /\ faithful dr pts /\
  exists polys out x, from_data sh dr polys [] [] [] [] 40 (1 / 10) = Ok out /\ pts (square dr 40) x /\ ~ covered pts out x.
Proof.
  exists cells16, cells_drawing, cell_in. split; [exact cells16_lawful|]. split; [exact cells_drawing_faithful|].
  exists [("p"%string, [(0, 0); (1, 0); (0, 0)])]. eexists. exists 7%nat. split; [reflexivity|]. split; [reflexivity|].
  intros (n & g & K & H). destruct K as [K|[]]. injection K as _ <-. discriminate H.
Qed.
Print Assumptions C92_refuted_all_area.

(** C93 *)
Theorem C93_round_trip :
  forall valid is_empty scale unit pl gl tl name self lib, unit <> 0 -> scale <> 0 ->
  to_gds valid is_empty scale unit (Some pl) (Some gl) (Some tl) name self = Ok lib ->
  (forall np, In np (flat self) -> is_empty (snd np) = false -> exterior (snd np) <> []) ->
  let kept := filter (fun np => negb (is_empty (snd np))) (flat self) in
  exists d, gds_to_data lib scale None (Layers None None [] [] None) = Ok d /\
  polys d = map (fun np => (fst np, exterior (snd np))) kept /\
  gaps d = filter (fun r => 2 <=? length r)%nat (flat_map (fun np => exterior (snd np) :: interiors (snd np)) kept) /\
  labels d = map (fun np => (fst np, hd (0, 0) (exterior (snd np)))) (filter (fun np => negb (String.eqb (fst np) "")) kept) /\
  routes d = [] /\ bridges d = [].
Proof. exact round_trip. Qed.
Print Assumptions C93_round_trip.
(** A written layout that is read again covers, in the square, the outlines of
    its polygons and whatever lies off the gaps between them. *)
Theorem C93_covered :
  forall valid is_empty scale unit pl gl tl name self lib, unit <> 0 -> scale <> 0 ->
  to_gds valid is_empty scale unit (Some pl) (Some gl) (Some tl) name self = Ok lib ->
  (forall np, In np (flat self) -> is_empty (snd np) = false -> exterior (snd np) <> []) ->
  let kept := filter (fun np => negb (is_empty (snd np))) (flat self) in
  let lines := filter (fun r => 2 <=? length r)%nat (flat_map (fun np => exterior (snd np) :: interiors (snd np)) kept) in
  forall G X (sh : shapely G) (dr : drawing G) (pts : G -> X -> Prop) edge buffer out, lawful sh pts -> faithful dr pts ->
  from_gds sh dr lib scale None (Layers None None [] [] None) edge buffer = Ok out ->
  forall x, covered pts out x <-> pts (square dr edge) x /\
    (drawn dr pts (map (fun np => (fst np, exterior (snd np))) kept) x \/ lines <> [] /\ ~ pts (buffered dr lines buffer) x).
Proof.
  intros valid is_empty scale unit pl gl tl name self lib Hu Hs Hg He kept lines G X sh dr pts edge buffer out L F E x.
  destruct (C93_round_trip _ _ _ _ _ _ _ _ _ _ Hu Hs Hg He) as (d & Ed & Dp & Dg & Dl & Dr & Db).
  unfold from_gds in E. rewrite Ed in E. cbn [bind] in E.
  rewrite (C92_coverage G X sh dr pts L F _ _ _ _ _ _ _ _ E x). rewrite Dp, Dg, Dr, Db. fold kept. fold lines. clear -x. tauto.
Qed.
Print Assumptions C93_covered.
Example C93_case :
  exists lib, to_gds (fun _ => true) (fun _ => false) 2 (1 / 1000) (Some (0, 0)%Z) (Some (1, 0)%Z) (Some (0, 0)%Z) "trap"
    [("a"%string, Single (Polygon [(0, 0); (3, 0); (0, 3); (0, 0)] [[(1, 1); (1, 3/2); (3/2, 1); (1, 1)]]))] = Ok lib /\
  exists out, from_gds cells16 cells_drawing lib 2 None (Layers None None [] [] None) 40 (1 / 10) = Ok out.
Proof.
  eexists. split; [reflexivity|]. unfold from_gds.
  match goal with |- context [gds_to_data ?l _ _ _] => assert (E : to_gds (fun _ => true) (fun _ => false) 2 (1 / 1000) (Some (0, 0)%Z) (Some (1, 0)%Z) (Some (0, 0)%Z) "trap"
    [("a"%string, Single (Polygon [(0, 0); (3, 0); (0, 3); (0, 0)] [[(1, 1); (1, 3/2); (3/2, 1); (1, 1)]]))] = Ok l) by reflexivity end.
  apply C93_round_trip in E; [|lra|lra|].
  - destruct E as (d & -> & _). cbn [bind]. apply from_data_valid. reflexivity.
  - intros np [<-|[]] _. discriminate.
Qed.

(** C94 *)
Theorem C94_names :
  forall G (valid : G -> bool) (buffer : G -> R -> G) (uu : list G -> G) (members : G -> list G) simpl_ sh polygon
    (self : list (string * G)) gap tol (preserve_topology : bool) g edge,
  map fst (add_gaps valid buffer gap self) = map fst self /\ map fst (unify uu members self) = map fst self /\
  map fst (simplify valid buffer simpl_ tol preserve_topology self) = map fst self /\ map fst (restrict sh g self) = map fst self /\
  map fst (within sh polygon edge self) = map fst self.
Proof. exact @maps_names. Qed.
Print Assumptions C94_names.
Theorem C94_restrict :
  forall G X (sh : shapely G) (pts : G -> X -> Prop) g self, lawful sh pts ->
  Forall2 (fun a b => forall x, pts (snd a) x <-> pts (snd b) x /\ pts g x) (restrict sh g self) self.
Proof. exact @restrict_points. Qed.
Print Assumptions C94_restrict.
Theorem C94_add_gaps :
  forall G (valid : G -> bool) buffer gap (self : list (string * G)),
  Forall2 (fun a b => snd a = buffer (snd b) (- gap / 2) /\ valid (snd a) = true \/ snd a = snd b /\ valid (buffer (snd b) (- gap / 2)) = false)
    (add_gaps valid buffer gap self) self.
Proof. exact @add_gaps_valid. Qed.
Print Assumptions C94_add_gaps.
Theorem C94_validate :
  forall G (valid : G -> bool) self,
  (validate valid self = Ok tt <-> forall n g, In (n, g) self -> valid g = true) /\
  (validate valid self <> Ok tt -> validate valid self = Raise ValueError).
Proof. exact @validate_spec. Qed.
Print Assumptions C94_validate.
Theorem C94_gaps_union :
  forall G X (sh : shapely G) (pts : G -> X -> Prop) boundary members self, lawful sh pts ->
  forall x, pts (gaps_union sh boundary members self) x <-> exists n g m, In (n, g) self /\ In m (members g) /\ pts (boundary m) x.
Proof. exact @gaps_union_spec. Qed.
Print Assumptions C94_gaps_union.
(** within: what lies in the square of the edge length about the origin;
    shapely's polygon of the corners of a rectangle is the rectangle *)
Theorem C94_within :
  forall G (sh : shapely G) (pts : G -> p2 -> Prop) polygon edge self, lawful sh pts ->
  (forall a b c d, a <= b -> c <= d -> forall x y, pts (polygon [(b, d); (a, d); (a, c); (b, c)]) (x, y) <-> a <= x <= b /\ c <= y <= d) -> 0 <= edge ->
  Forall2 (fun a b => fst a = fst b /\ forall x y, pts (snd a) (x, y) <-> pts (snd b) (x, y) /\ Rabs x <= edge / 2 /\ Rabs y <= edge / 2) (within sh polygon edge self) self.
Proof. exact @within_points. Qed.
Print Assumptions C94_within.
(** simplify: no point further from the original than the tolerance, if
    shapely keeps its promise; unify: the same points *)
Theorem C94_simplify :
  forall G X (valid : G -> bool) buffer (simpl_ : G -> R -> bool -> G) tol preserve (pts : G -> X -> Prop) (near : R -> X -> X -> Prop) (self : list (string * G)),
  (forall g t b x, pts (simpl_ g t b) x -> exists y, pts g y /\ near t x y) -> tol <> 0 ->
  Forall2 (fun a b => fst a = fst b /\ snd a = simpl_ (snd b) tol preserve /\ forall x, pts (snd a) x -> exists y, pts (snd b) y /\ near tol x y)
    (simplify valid buffer simpl_ tol preserve self) self.
Proof. exact @simplify_near. Qed.
Print Assumptions C94_simplify.
Theorem C94_unify :
  forall G X (uu : list G -> G) (members : G -> list G) (pts : G -> X -> Prop) (self : list (string * G)),
  (forall l x, pts (uu l) x <-> exists g, In g l /\ pts g x) -> (forall g x, pts g x <-> exists m, In m (members g) /\ pts m x) ->
  Forall2 (fun a b => fst a = fst b /\ forall x, pts (snd a) x <-> pts (snd b) x) (unify uu members self) self.
Proof. exact @unify_points. Qed.
Print Assumptions C94_unify.
(** sets of points, whose polygons are the boxes around their corners *)
Definition point_sets : shapely (p2 -> Prop) :=
  Shapely _ (fun a b x => a x /\ b x) (fun a b x => a x \/ b x) (fun a b x => a x /\ ~ b x) (fun _ => 0) (fun _ => true) (fun _ => False).
Example C94_within_case :
  lawful point_sets (fun g x => g x) /\
  let polygon := fun r : list p2 => fun x : p2 => match r with [(b, d); _; (a, c); _] => a <= fst x <= b /\ c <= snd x <= d | _ => False end in
  (forall a b c d, a <= b -> c <= d -> forall x y, polygon [(b, d); (a, d); (a, c); (b, c)] (x, y) <-> a <= x <= b /\ c <= y <= d) /\
  (forall l x, (fun y => exists g : p2 -> Prop, In g l /\ g y) x <-> exists g, In g l /\ g x) /\
  (forall (g : p2 -> Prop) x, g x <-> exists m, In m [g] /\ m x).
Proof.
  split; [constructor; cbn; intros; first [tauto|lra|reflexivity|apply Classical_Prop.classic]|]. cbn zeta. split; [intros; cbn [fst snd]; reflexivity|]. split; [reflexivity|].
  intros g x. split; [intros H; exists g; split; [now left|exact H]|]. intros (m & [<-|[]] & H). exact H.
Qed.
Example C94_case : lawful cells16 cell_in.
Proof. exact cells16_lawful. Qed.
