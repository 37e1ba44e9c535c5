(** Model of the class Polygons and of square_pads, electrode/polygons.py.
    A Polygons instance is a list of pairs (name, geometry).  Shapely's
    geometries are values of an abstract type; its operations are arguments
    of the model (records of functions), their properties hypotheses of the
    theorems.  smooth (46-71, 581-621) is in ModelSmooth.v; not modelled: plotting and
    the file formats of gdsii. *)
From Verif Require Import Base ModelExpr ModelField ModelGeom.
Open Scope R_scope.
Notation length := List.length.

(** ** assign_to_pad, 637-649.  [meets p i]: the point p intersects the
    geometry of polygon i.  The iterator is modelled by the list of all it
    yields; the list [polys] is only shortened just before a [break]. *)
Fixpoint remove_first (i : nat) (l : list nat) : list nat :=
  match l with [] => [] | j :: r => if (i =? j)%nat then r else j :: remove_first i r end.
Fixpoint assign_loop {P} (meets : P -> nat -> bool) (pad : nat) (pads : list P) (polys : list nat)
    : list (option nat * nat) :=
  match pads with
  | [] => map (fun i => (None, i)) polys
  | p :: pads' =>
      match find (meets p) polys with
      | Some i =>
          (Some pad, i) ::
          (let polys := remove_first i polys in
           if (length polys =? 0)%nat then [] else assign_loop meets (S pad) pads' polys)
      | None => if (length polys =? 0)%nat then [] else assign_loop meets (S pad) pads' polys
      end
  end.
Definition assign_to_pad {P G} (intersects : P -> G -> bool) (self : list (string * G)) (pads : list P)
    : list (option nat * nat) :=
  assign_loop (fun p i => match nth_error self i with Some x => intersects p (snd x) | None => false end)
    0 pads (seq 0 (length self)).

(** ** from_data, 297-337 *)
Record shapely (G : Type) : Type := Shapely
  { inter : G -> G -> G; union : G -> G -> G; diff : G -> G -> G;
    area : G -> R; is_valid : G -> bool; empty : G }.
Arguments inter {G}. Arguments union {G}. Arguments diff {G}.
Arguments area {G}. Arguments is_valid {G}. Arguments empty {G}.
(** further operations of from_data: the square 298-299, the buffered
    lines 303 and 323, polygonize of routes and bridges 308 and of a single
    path 312 (with orient, 314), the members of a (multi)polygon 324-325,
    rounding of the coordinates 329-333 and the test of 641 *)
Record drawing (G : Type) : Type := Drawing
  { square : R -> G; buffered : list (list p2) -> R -> G;
    cells : list (list p2) -> list (list p2) -> list G; polygonize : list p2 -> list G;
    oriented : G -> G; members : G -> list G; rounded : R -> G -> G;
    intersects : p2 -> G -> bool }.
Arguments square {G}. Arguments buffered {G}. Arguments cells {G}. Arguments polygonize {G}.
Arguments oriented {G}. Arguments members {G}. Arguments rounded {G}. Arguments intersects {G}.
(** truth value of a list and of the MultiLineString made of it, which is not
    empty as the paths are not *)
Definition truthy {A} (l : list A) : bool := match l with [] => false | _ => true end.
(** the naming step, 332-336 *)
Definition name_fragments {G} (meets : p2 -> G -> bool) (fragments : list (string * G)) (names : list (string * p2))
    : list (string * G) :=
  match names with
  | [] => fragments
  | _ =>
      flat_map (fun ij =>
        match nth_error fragments (snd ij) with
        | None => []
        | Some f =>
            [(match fst ij with
              | None => fst f
              | Some i => match nth_error names i with Some n => fst n | None => fst f end
              end, snd f)]
        end) (assign_to_pad meets fragments (map snd names))
  end.
(** the loop over polys, 311-317; the state is (fragments, field) *)
Definition add_polys {G} (sh : shapely G) (dr : drawing G) (field0 : G)
    (polys : list (string * list p2)) (st : list (string * G) * G) : res (list (string * G) * G) :=
  fold_left (fun st np => fold_left (fun st poly =>
      bind st (fun st =>
      if is_valid sh poly then
        let poly := inter sh (oriented dr poly) field0 in
        Ok (fst st ++ [(fst np, poly)], diff sh (snd st) poly)
      else Raise AssertionError)) (polygonize dr (snd np)) st) polys (Ok st).
Definition from_data {G} (sh : shapely G) (dr : drawing G) (polys : list (string * list p2))
    (gaps routes bridges : list (list p2)) (names : list (string * p2)) (edge buffer : R)
    : res (list (string * G)) :=
  let field0 := square dr edge in
  let field := if truthy gaps then diff sh field0 (buffered dr gaps buffer) else field0 in
  let field := if truthy routes && truthy bridges then
      fold_left (fun field poly => union sh field (inter sh poly field0)) (cells dr routes bridges) field
    else field in
  bind (add_polys sh dr field0 polys ([], field)) (fun st =>
  let '(fragments, field) := st in
  let field := if truthy routes then diff sh field (buffered dr routes buffer) else field in
  if negb (is_valid sh field) then Raise AssertionError
  else
    let field := if negb (truthy gaps) && negb (truthy routes) then [] else members dr field in
    let fragments := fragments ++ map (fun i => (""%string, rounded dr buffer i)) field in
    Ok (name_fragments (intersects dr) fragments names)).

(** ** remove_overlaps, 453-465; the state is (p, acc).  [geometry.Point()]
    is empty.  [np.finfo(np.float32).eps] is 2^-23. *)
Definition float32_eps : R := / 2 ^ 23.
Definition overlap_step {G} (sh : shapely G) (st : list (string * G) * G) (x : string * G) : list (string * G) * G :=
  let '(p, acc) := st in
  let '(ni, pi) := x in
  let pa := inter sh acc pi in
  let pi := if is_valid sh pa && (if Rlt_dec float32_eps (area sh pa) then true else false) then
      let pc := diff sh pi pa in
      if is_valid sh pc then pc else pi
    else pi in
  let acca := union sh acc pi in
  let acc := if is_valid sh acca then acca else acc in
  (p ++ [(ni, pi)], acc).
Definition remove_overlaps {G} (sh : shapely G) (self : list (string * G)) : list (string * G) :=
  fst (fold_left (overlap_step sh) self ([], empty sh)).

(** ** maps over the list: add_gaps 483-490, unify 507-512, simplify 533-539,
    restrict 681-684, within 686-689, validate 441-443, gaps_union 660-672 *)
Definition add_gaps {G} (valid : G -> bool) (buffer : G -> R -> G) (gapsize : R) (self : list (string * G)) : list (string * G) :=
  map (fun np => let pb := buffer (snd np) (- gapsize / 2) in (fst np, if valid pb then pb else snd np)) self.
Definition unify {G} (unary_union : list G -> G) (members : G -> list G) (self : list (string * G)) : list (string * G) :=
  map (fun np => (fst np, unary_union (members (snd np)))) self.
Definition simplify {G} (valid : G -> bool) (buffer_ : G -> R -> G) (simpl_ : G -> R -> bool -> G)
    (buffer : R) (preserve_topology : bool) (self : list (string * G)) : list (string * G) :=
  if Req_EM_T buffer 0 then add_gaps valid buffer_ buffer self
  else map (fun np => (fst np, simpl_ (snd np) buffer preserve_topology)) self.
Definition restrict {G} (sh : shapely G) (g : G) (self : list (string * G)) : list (string * G) :=
  map (fun np => (fst np, inter sh (snd np) g)) self.
Definition within {G} (sh : shapely G) (polygon : list p2 -> G) (edge : R) (self : list (string * G)) : list (string * G) :=
  let e := edge / 2 in
  restrict sh (polygon [(e, e); (- e, e); (- e, - e); (e, - e)]) self.
Fixpoint validate {G} (valid : G -> bool) (self : list (string * G)) : res unit :=
  match self with
  | [] => Ok tt
  | np :: r => if valid (snd np) then validate valid r else Raise ValueError
  end.
Definition gaps_union {G} (sh : shapely G) (boundary : G -> G) (members : G -> list G) (self : list (string * G)) : G :=
  fold_left (union sh) (flat_map (fun np => map boundary (members (snd np))) self) (empty sh).

(** ** unify_by_name, 494-497: Python's dictionaries keep the order of
    insertion *)
Fixpoint dict_append {G} (d : list (string * list G)) (n : string) (x : G) : list (string * list G) :=
  match d with
  | [] => [(n, [x])]
  | (m, v) :: r => if String.eqb m n then (m, v ++ [x]) :: r else (m, v) :: dict_append r n x
  end.
Definition unify_by_name {G} (unary_union : list G -> G) (self : list (string * G)) : list (string * G) :=
  map (fun nv => (fst nv, unary_union (snd nv)))
    (fold_left (fun d np => dict_append d (fst np) (snd np)) self []).

(** ** polygons made of rings, for filter, to_system and to_gds *)
Record polygon := Polygon { exterior : list p2; interiors : list (list p2) }.
(** a geometry is a polygon or a multipolygon *)
Inductive shape := Single (p : polygon) | Multi (ps : list polygon).
Definition geoms (s : shape) : list polygon := match s with Single p => [p] | Multi ps => ps end.

(** filter, 560-579.  A test is of boundaries (deep) or of polygons; [None]
    without deep calls None, a TypeError.  [area] is that of
    [geometry.Polygon(boundary)], 562. *)
Definition default_test (area : list p2 -> R) (name : string) (boundary : list p2) : bool :=
  if Rlt_dec (1 / 100) (Rabs (area boundary)) then true else false.
Definition filter_deep (test : string -> list p2 -> bool) (self : list (string * shape)) : list (string * shape) :=
  flat_map (fun np =>
    let pe := flat_map (fun ppi =>
        if test (fst np) (exterior ppi) then [Polygon (exterior ppi) (filter (test (fst np)) (interiors ppi))] else [])
      (geoms (snd np)) in
    if truthy pe then [(fst np, Multi pe)] else []) self.
Definition filter_flat (test : string -> polygon -> bool) (self : list (string * shape)) : list (string * shape) :=
  flat_map (fun np =>
    let pe := filter (test (fst np)) (geoms (snd np)) in
    if truthy pe then [(fst np, Multi pe)] else []) self.
Definition filter_flat_none (self : list (string * shape)) : res (list (string * shape)) :=
  if existsb (fun np => truthy (geoms (snd np))) self then Raise TypeError else Ok [].

(** ** to_system, 153-171.  [ccw] is shapely's [is_ccw]; [ok] is
    [pi.is_valid and pi.area]. *)
Definition to_paths (ccw : list p2 -> bool) (ok : polygon -> bool) (p : polygon) : list (list p2) :=
  if ok p then
    removelast (if ccw (exterior p) then exterior p else rev (exterior p)) ::
    map (fun ii => removelast (if ccw ii then rev ii else ii)) (interiors p)
  else [].
Definition to_system (ccw : list p2 -> bool) (ok : polygon -> bool) (self : list (string * shape)) : list electrode :=
  map (fun np => Electrode (fst np) 0 0 (EPolygon (flat_map (to_paths ccw ok) (geoms (snd np))) 0 50)) self.

(** ** from_system, 98-144 *)
(** [list.sort] with a key is stable *)
Fixpoint insert_by {A} (key : A -> R) (x : A) (l : list A) : list A :=
  match l with
  | [] => [x]
  | y :: r => if Rle_dec (key x) (key y) then x :: l else y :: insert_by key x r
  end.
Definition sort_by {A} (key : A -> R) (l : list A) : list A := fold_right (insert_by key) [] l.
(** the loop over the interiors, 123-130: gint and done *)
Fixpoint interior_loop (contains : list p2 -> list p2 -> bool) (exta : R) (exterior : list p2)
    (i : nat) (ints : list (R * list p2)) (gint : list (list p2)) (done : list nat) : list (list p2) * list nat :=
  match ints with
  | [] => (gint, done)
  | (inta, interior) :: r =>
      if existsb (Nat.eqb i) done then interior_loop contains exta exterior (S i) r gint done
      else if Rle_dec exta inta then (gint, done)
      else if contains exterior interior
           then interior_loop contains exta exterior (S i) r (gint ++ [interior]) (done ++ [i])
           else interior_loop contains exta exterior (S i) r gint done
  end.
(** the loop over the exteriors, 120-131, without the test of the polygons *)
Fixpoint exterior_loop (contains : list p2 -> list p2 -> bool) (exts ints : list (R * list p2)) (done : list nat)
    : list polygon :=
  match exts with
  | [] => []
  | (exta, exterior) :: r =>
      let '(gint, done) := interior_loop contains exta exterior 0 ints [] done in
      Polygon exterior gint :: exterior_loop contains r ints done
  end.
Definition exts_of (paths : list (list p2)) : list (R * list p2) :=
  sort_by fst (map (fun p => (Rabs (fst (area_centroid p)), p))
    (filter (fun p => if Rlt_dec 0 (fst (area_centroid p)) then true else false) paths)).
Definition ints_of (paths : list (list p2)) : list (R * list p2) :=
  sort_by fst (map (fun p => (Rabs (fst (area_centroid p)), p))
    (filter (fun p => if Rlt_dec (fst (area_centroid p)) 0 then true else false) paths)).
Definition contours (contains : list p2 -> list p2 -> bool) (paths : list (list p2)) : list polygon :=
  exterior_loop contains (exts_of paths) (ints_of paths) [].
(** [ok] is [pi.is_valid and pi.area > 0]; [unary_union] of the groups *)
Definition from_system {G} (contains : list p2 -> list p2 -> bool) (ok : polygon -> bool) (unary_union : list polygon -> G)
    (system : list electrode) : list (string * G) :=
  flat_map (fun e =>
    match egeom e with
    | EPolygon paths _ _ =>
        if truthy (exts_of paths) then [(ename e, unary_union (filter ok (contours contains paths)))] else []
    | _ => []
    end) system.

(** ** GDS, 220-255 and 372-430.  An element carries the layer, the data
    type, the points and, for a boundary, its name property; the attribute
    of 236 is [""] if there is none. *)
Inductive element :=
| Boundary (layer : Z * Z) (xy : list p2) (name : string)
| Path (layer : Z * Z) (xy : list p2)
| Text (layer : Z * Z) (xy : list p2) (str : string)
| OtherElement.
Record library := Library { physical_unit : R; structures : list (string * list element) }.
Record layers := Layers { poly_layers : option (list (Z * Z)); gap_layers : option (list (Z * Z));
  route_layers : list (Z * Z); bridge_layers : list (Z * Z); name_layers : option (list Z) }.
Definition same_layer (a b : Z * Z) : bool := ((fst a =? fst b) && (snd a =? snd b))%Z.
Definition layer_in (ij : Z * Z) (l : list (Z * Z)) : bool := existsb (same_layer ij) l.
Definition none_or {A} (test : A -> bool) (o : option A) : bool := match o with None => true | Some l => test l end.
(** 226-229: the variable [stru] after the loop *)
Fixpoint find_structure (name : option string) (l : list (string * list element)) (stru : option (list element)) : option (list element) :=
  match l with
  | [] => stru
  | (n, s) :: r => if none_or (fun m => String.eqb m n) name then Some s else find_structure name r (Some s)
  end.
Record gds_data := GdsData { polys : list (string * list p2); gaps : list (list p2); routes : list (list p2);
  bridges : list (list p2); labels : list (string * p2) }.
Definition sort_element (ls : layers) (unit scale : R) (d : gds_data) (e : element) : res gds_data :=
  let scaled := map (fun p => (fst p * unit / scale, snd p * unit / scale)) in
  match e with
  | Boundary ij xy name =>
      Ok (if none_or (layer_in ij) (poly_layers ls) then GdsData (polys d ++ [(name, scaled xy)]) (gaps d) (routes d) (bridges d) (labels d) else d)
  | Path ij xy =>
      Ok (if (length xy <? 2)%nat then d
          else if none_or (layer_in ij) (gap_layers ls) then GdsData (polys d) (gaps d ++ [scaled xy]) (routes d) (bridges d) (labels d)
          else if layer_in ij (route_layers ls) then GdsData (polys d) (gaps d) (routes d ++ [scaled xy]) (bridges d) (labels d)
          else if layer_in ij (bridge_layers ls) then GdsData (polys d) (gaps d) (routes d) (bridges d ++ [scaled xy]) (labels d)
          else d)
  | Text ij xy s =>
      if none_or (existsb (Z.eqb (fst ij))) (name_layers ls) then
        match scaled xy with
        | [] => Raise IndexError
        | p :: _ => Ok (GdsData (polys d) (gaps d) (routes d) (bridges d) (labels d ++ [(s, p)]))
        end
      else Ok d
  | OtherElement => Ok d
  end.
(** what from_gds hands to from_data *)
Definition gds_to_data (lib : library) (scale : R) (name : option string) (ls : layers) : res gds_data :=
  match find_structure name (structures lib) None with
  | None => Raise UnboundLocalError
  | Some stru => fold_left (fun d e => bind d (fun d => sort_element ls (physical_unit lib) scale d e)) stru (Ok (GdsData [] [] [] [] []))
  end.
Definition from_gds {G} (sh : shapely G) (dr : drawing G) (lib : library) (scale : R) (name : option string) (ls : layers) (edge buffer : R)
    : res (list (string * G)) :=
  bind (gds_to_data lib scale name ls) (fun d => from_data sh dr (polys d) (gaps d) (routes d) (bridges d) (labels d) edge buffer).
(** to_gds without edge; names are ascii; the width of the paths is dropped *)
Definition gds_polygon (scale unit : R) (poly_layer text_layer : option (Z * Z)) (name : string) (p : polygon) : list element :=
  let xy := map (fun q => (fst q * scale / unit, snd q * scale / unit)) (exterior p) in
  (match text_layer with
   | Some l => if String.eqb name "" then [] else [Text l (firstn 1 xy) name]
   | None => []
   end) ++
  (match poly_layer with Some l => [Boundary l xy name] | None => [] end).
Definition to_gds (valid : polygon -> bool) (is_empty : polygon -> bool) (scale unit : R)
    (poly_layer gap_layer text_layer : option (Z * Z)) (name : string) (self : list (string * shape)) : res library :=
  let all := flat_map (fun np => map (fun p => (fst np, p)) (geoms (snd np))) self in
  if negb (forallb (fun np => valid (snd np)) all) then Raise AssertionError
  else
    let kept := filter (fun np => negb (is_empty (snd np))) all in
    let loops := flat_map (fun np => exterior (snd np) :: interiors (snd np)) kept in
    Ok (Library unit [(name,
      flat_map (fun np => gds_polygon scale unit poly_layer text_layer (fst np) (snd np)) kept ++
      match gap_layer with
      | Some l => map (fun loop => Path l (map (fun q => (fst q * scale / unit, snd q * scale / unit)) loop)) loops
      | None => []
      end)]).

(** ** square_pads, 713-724.  [int] truncates; the number of elements of
    [np.arange(start, stop)] is the ceiling of the difference, here n. *)
Definition truncate (x : R) : Z := if Rlt_dec x 0 then (- Int_part (- x))%Z else Int_part x.
Definition slice_from {A} (l : list A) (i : Z) : list A :=
  skipn (Z.to_nat (if (i <? 0)%Z then i + Z.of_nat (length l) else i)) l.
Definition slice_to {A} (l : list A) (i : Z) : list A :=
  firstn (Z.to_nat (if (i <? 0)%Z then i + Z.of_nat (length l) else i)) l.
Definition square_pads (step edge : R) (odd : bool) (start_corner : Z) : res (list p2) :=
  if Req_EM_T step 0 then Raise ZeroDivisionError
  else
    let n := truncate (edge / step) in
    let n := if odd then (n + (n mod 2) + 1)%Z else n in
    if (n <? 0)%Z then Raise AssertionError
    else
      let p := map (fun k => (- IZR n / 2 + 1 / 2 + INR k) * step) (seq 0 (Z.to_nat n)) in
      let q := edge / 2 - step / 2 in
      let edges := [map (fun x => (- q, - x)) p; map (fun x => (x, - q)) p; map (fun x => (q, x)) p; map (fun x => (- x, q)) p] in
      Ok (concat (slice_from edges start_corner ++ slice_to edges start_corner)).
