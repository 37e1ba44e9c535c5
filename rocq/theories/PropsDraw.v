(** C169: what electrodes draw. *)
From Coq Require Import Permutation.
From Verif Require Import Base ModelUtils ModelField ModelPlot SpecField SpecPoly SpecMax ModelDraw SpecDraw ProofDraw ProofPlot.
Open Scope R_scope.
Notation length := List.length.

(** C169: a polygon electrode draws one shape whose outline is made of exactly
    the edges of its polygons, each once and in its direction; the area it
    encloses is the sum of their signed areas.  The transparency is used. *)
Theorem C169_outline :
  forall e paths n h label alpha, egeom e = EPolygon paths n h -> paths <> [] -> ~ In [] paths ->
  exists d p, electrode_plot e label alpha = Ok d /\ patches d = [p] /\ circles d = [] /\ p_alpha p = alpha /\
    length (p_vertices p) = length (p_codes p) /\
    Permutation (segments p) (concat (map edges_of paths)) /\
    enclosed (segments p) = sum_over paths (fun q => signed_area q).
Proof. intros e paths n h label alpha G. unfold electrode_plot. rewrite G. exact (outline paths (ename e) label alpha). Qed.
Print Assumptions C169_outline.
(** a square with a square hole *)
Definition drawing (name : string) (g : geom) : electrode := {| egeom := g; ename := name; erf := 0; edc := 0 |}.
Definition holed : electrode := drawing "rf" (EPolygon [rectangle 0 0 4 4; rev (rectangle 1 1 2 2)] 0%Z 1).
Example C169_outline_case :
  exists d p, electrode_plot holed None None = Ok d /\ patches d = [p] /\
    length (segments p) = 8%nat /\ enclosed (segments p) = 15.
Proof.
  destruct (C169_outline holed _ _ _ None None eq_refl) as (d & p & E & P & _ & _ & _ & S & A).
  - discriminate.
  - intros [H|[H|[]]]; discriminate H.
  - exists d, p. split; [exact E|]. split; [exact P|]. split; [rewrite (Permutation_length S); reflexivity|]. rewrite A.
    unfold sum_over, signed_area, edges_of, rectangle, cross2. cbn. unfold sum_over. cbn. field.
Qed.

(** C169: every polygon carries the label, the name unless another one is
    given, at the mean of its vertices; an empty label is not drawn.  In a convex
    polygon that place is inside. *)
Theorem C169_label :
  forall e paths n h label alpha d, egeom e = EPolygon paths n h -> electrode_plot e label alpha = Ok d ->
  let shown := match label with Some l => l | None => ename e end in
  (shown = ""%string -> texts d = []) /\
  (shown <> ""%string -> length (texts d) = length paths /\
    forall i, (i < length paths)%nat ->
      t_label (nth i (texts d) (Text (0, 0) "")) = shown /\
      (convex (nth i paths []) -> interior (nth i paths []) (t_at (nth i (texts d) (Text (0, 0) ""))))).
Proof.
  intros e paths n h label alpha d G H shown. unfold electrode_plot in H. rewrite G in H. rewrite (polygon_labels _ _ _ _ _ H). unfold label_of. fold shown. destruct (String.eqb_spec shown "") as [E|N].
  - split; [reflexivity|contradiction].
  - split; [contradiction|]. intros _. split; [apply map_length|]. intros i Hi.
    rewrite (nth_indep _ _ (Text (mean2 []) shown)) by (rewrite map_length; exact Hi). rewrite (map_nth (fun p => Text (mean2 p) shown)). cbn [t_label t_at]. split; [reflexivity|apply mean_interior].
Qed.
Print Assumptions C169_label.
Example C169_label_case :
  exists d, electrode_plot (drawing "dc1" (EPolygon [rectangle 0 0 4 2] 0%Z 1)) None None = Ok d /\ texts d = [Text (2, 1) "dc1"] /\ interior (rectangle 0 0 4 2) (2, 1).
Proof.
  eexists. split; [reflexivity|]. split; [cbn; unfold mean2; cbn; do 2 f_equal; apply f_equal2; field|].
  intros e [<-|[<-|[<-|[<-|[]]]]]; unfold left_of; cbn; lra.
Qed.

(** C169: a point electrode draws one disc per point, centred there; a point of
    area a that is not negative has a disc of that area. *)
Theorem C169_discs :
  forall e pixels n h label alpha, egeom e = EPoint pixels n h -> pixels <> [] ->
  exists d c, electrode_plot e label alpha = Ok d /\ patches d = [] /\ circles d = [c] /\
    length (d_diameters c) = length pixels /\ length (d_offsets c) = length pixels /\
    forall i, (i < length pixels)%nat ->
      nth i (d_offsets c) (0, 0) = fst (nth i pixels ((0, 0), 0)) /\
      (0 <= snd (nth i pixels ((0, 0), 0)) ->
       exists w, nth i (d_diameters c) None = Some w /\ 0 <= w /\ PI * (w / 2) ^ 2 = snd (nth i pixels ((0, 0), 0))).
Proof.
  intros e pixels n h label alpha G N. unfold electrode_plot. rewrite G. unfold point_plot. destruct pixels as [|x l] eqn:E; [contradiction|]. rewrite <- E. eexists. eexists. split; [reflexivity|]. split; [reflexivity|]. split; [reflexivity|].
  cbn [d_diameters d_offsets]. split; [apply map_length|]. split; [apply map_length|]. intros i Hi. split.
  - change (0, 0) with (fst ((0, 0), 0) : p2) at 1. apply map_nth.
  - intros A. destruct (disc_area _ A) as (w & W & P). exists w. split; [|exact P].
    rewrite (nth_indep _ _ (diameter (snd ((0, 0) : p2, 0)))) by (rewrite map_length; exact Hi). rewrite (map_nth (fun x => diameter (snd x))). exact W.
Qed.
Print Assumptions C169_discs.
(** the label of points is drawn once, at their mean *)
Theorem C169_points_label :
  forall e pixels nmax h label alpha d, egeom e = EPoint pixels nmax h -> electrode_plot e label alpha = Ok d ->
  let shown := match label with Some l => l | None => ename e end in
  let n := INR (length pixels) in
  texts d = if String.eqb shown "" then []
            else [Text (sum_over pixels (fun x => fst (fst x)) / n, sum_over pixels (fun x => snd (fst x)) / n) shown].
Proof.
  intros e pixels nmax h label alpha d G H shown n. unfold electrode_plot in H. rewrite G in H. unfold point_plot in H. destruct pixels as [|x l] eqn:E; [discriminate H|]. rewrite <- E in H. injection H as <-. cbn [texts].
  unfold label_of. fold shown. destruct (String.eqb shown ""); [reflexivity|]. unfold mean2, sum_over. rewrite map_length, !map_map. subst n. rewrite E. reflexivity.
Qed.
Print Assumptions C169_points_label.
Example C169_discs_case :
  exists d c, electrode_plot (drawing "p" (EPoint [((1, 2), PI); ((3, 5), 4 * PI)] 0%Z 1)) (Some ""%string) None = Ok d /\ circles d = [c] /\
    d_offsets c = [(1, 2); (3, 5)] /\ texts d = [] /\ exists w, nth 1 (d_diameters c) None = Some w /\ w = 4.
Proof.
  destruct (C169_discs (drawing "p" (EPoint [((1, 2), PI); ((3, 5), 4 * PI)] 0%Z 1)) _ _ _ (Some ""%string) None eq_refl ltac:(discriminate)) as (d & c & E & _ & C & _ & _ & H).
  exists d, c. split; [exact E|]. split; [exact C|].
  assert (D : d = Drawn [] [Discs [diameter PI; diameter (4 * PI)] [(1, 2); (3, 5)] None] []) by (cbn in E; injection E as <-; reflexivity).
  rewrite D in C. injection C as <-. split; [reflexivity|]. split; [rewrite D; reflexivity|].
  destruct (H 1%nat ltac:(cbn; lia)) as [_ (w & W & P & A)]; [cbn; pose proof PI_RGT_0; lra|]. exists w. split; [exact W|]. cbn in A. pose proof PI_RGT_0.
  assert (w * w = 16) by (apply (Rmult_eq_reg_l (PI / 4)); [|lra]; lra). nra.
Qed.

(** C169: System.plot draws every electrode, in order, provided that none of
    them is empty *)
Theorem C169_system :
  forall s alpha, (forall e, In e s -> drawable (egeom e)) <-> exists l, system_plot s alpha = Ok l.
Proof. exact system_plot_ok. Qed.
Print Assumptions C169_system.
Theorem C169_system_each :
  forall s alpha l, system_plot s alpha = Ok l -> length l = length s /\
  forall i e, (i < length s)%nat -> electrode_plot (nth i s e) None (Some alpha) = Ok (nth i l (Drawn [] [] [])).
Proof.
  intros s alpha l H. rewrite system_plot_eq in H. apply ProofGrid.collect_inv in H. rewrite map_length in H. destruct H as [L H]. split; [exact L|]. intros i e Hi.
  rewrite <- (H i (Drawn [] [] []) Hi). rewrite (nth_indep _ _ (electrode_plot e None (Some alpha))) by (rewrite map_length; exact Hi). symmetry. apply (map_nth (fun e => electrode_plot e None (Some alpha))).
Qed.
Print Assumptions C169_system_each.
(** covers, meshes and grids of samples draw nothing *)
Theorem C169_nothing :
  forall e label alpha, (match egeom e with EPolygon _ _ _ | EPoint _ _ _ => False | _ => True end) ->
  electrode_plot e label alpha = Ok (Drawn [] [] []).
Proof. intros e label alpha. unfold electrode_plot. destruct (egeom e); intros H; try contradiction; reflexivity. Qed.
Print Assumptions C169_nothing.

(** an electrode without polygons, with an empty polygon or without points
    cannot be drawn, nor can a system that has one *)
Theorem C169_refuted_empty :
  forall s alpha e, In e s -> ~ drawable (egeom e) -> exists x, system_plot s alpha = Raise x.
Proof.
  intros s alpha e I N. destruct (system_plot s alpha) as [l|x] eqn:E; [|exists x; reflexivity]. exfalso. apply N. apply (proj2 (system_plot_ok s alpha)); [exists l; exact E|exact I].
Qed.
Print Assumptions C169_refuted_empty.
Example C169_refuted_empty_case :
  polygon_plot [] "a" None None = Raise ValueError /\ polygon_plot [rectangle 0 0 1 1; []] "a" None None = Raise IndexError /\ point_plot [] "a" None None = Raise IndexError.
Proof. repeat split. Qed.
(** the transparency given to System.plot reaches polygons and not points *)
Theorem C169_refuted_alpha :
  forall e label alpha d c, electrode_plot e label alpha = Ok d -> In c (circles d) -> d_alpha c = None.
Proof.
  intros e label alpha d c H I. unfold electrode_plot in H. destruct (egeom e) as [[|x l]|paths| | |] eqn:G; try (injection H as <-; destruct I; fail); [discriminate H| |].
  2: { unfold polygon_plot in H. destruct (collect _) as [[|y r]|]; cbn [bind] in H; try discriminate H. injection H as <-. destruct I. }
  injection H as <-. destruct I as [<-|[]]. reflexivity.
Qed.
Print Assumptions C169_refuted_alpha.
Example C169_refuted_alpha_case :
  exists d c, electrode_plot (drawing "p" (EPoint [((0, 0), 1)] 0%Z 1)) None (Some (1 / 2)) = Ok d /\ circles d = [c] /\ d_alpha c = None.
Proof. eexists. eexists. repeat split. Qed.
(** a point of negative area (a hole, as to_points makes them) has no disc at all: the hole is not seen *)
Theorem C169_refuted_hole :
  forall e pixels n h label alpha d c i, egeom e = EPoint pixels n h -> electrode_plot e label alpha = Ok d -> In c (circles d) ->
  (i < length pixels)%nat -> snd (nth i pixels ((0, 0), 0)) < 0 -> nth i (d_diameters c) None = None.
Proof.
  intros e pixels n h label alpha d c i G H I Hi A. unfold electrode_plot in H. rewrite G in H. unfold point_plot in H. destruct pixels as [|x l] eqn:E; [discriminate H|]. rewrite <- E in *. injection H as <-. destruct I as [<-|[]]. cbn [d_diameters].
  rewrite (nth_indep _ _ (diameter (snd ((0, 0) : p2, 0)))) by (rewrite map_length; exact Hi). rewrite (map_nth (fun x => diameter (snd x))). unfold diameter. destruct (Rlt_dec _ 0); [reflexivity|contradiction].
Qed.
Print Assumptions C169_refuted_hole.
Example C169_refuted_hole_case :
  exists d c, electrode_plot (drawing "p" (EPoint [((0, 0), 4); ((0, 0), -1)] 0%Z 1)) None None = Ok d /\ circles d = [c] /\ nth 1 (d_diameters c) None = None.
Proof.
  eexists. eexists. split; [reflexivity|]. split; [reflexivity|]. apply (C169_refuted_hole (drawing "p" (EPoint [((0, 0), 4); ((0, 0), -1)] 0%Z 1)) [((0, 0), 4); ((0, 0), -1)] _ _ None None _ _ 1%nat eq_refl eq_refl (or_introl eq_refl)); [cbn; lia|cbn; lra].
Qed.
