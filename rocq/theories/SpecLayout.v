(** What the layout functions are meant to do. *)
From Coq Require Import Permutation Sorted.
From Verif Require Import Base ModelExpr ModelField ModelLayout SpecPoly.
Open Scope R_scope.
Notation length := List.length.

(** ** C58: pads get polygons *)
(** polygon j is not given to a pad before k *)
Definition unused_before (matched : list (nat * nat)) (k j : nat) : Prop :=
  forall k', In (k', j) matched -> (k <= k')%nat.
Record pad_assignment (meets : nat -> nat -> bool) (npads npolys : nat) (out : list (option nat * nat))
    (matched : list (nat * nat)) (rest : list nat) : Prop := PadAssignment
  { pa_out : out = map (fun ki => (Some (fst ki), snd ki)) matched ++ map (fun i => (None, i)) rest;
    pa_all : Permutation (map snd out) (seq 0 npolys);
    pa_pads : StronglySorted lt (map fst matched) /\ Forall (fun k => (k < npads)%nat) (map fst matched);
    pa_rest : StronglySorted lt rest;
    pa_first : forall k i, In (k, i) matched -> meets k i = true /\
      forall j, (j < npolys)%nat -> unused_before matched k j -> meets k j = true -> (i <= j)%nat;
    pa_skip : forall k, (k < npads)%nat -> ~ In k (map fst matched) ->
      forall j, (j < npolys)%nat -> unused_before matched k j -> meets k j = false }.

(** ** point sets *)
Record lawful {G X} (sh : shapely G) (pts : G -> X -> Prop) : Prop := Lawful
  { l_inter : forall a b x, pts (inter sh a b) x <-> pts a x /\ pts b x;
    l_union : forall a b x, pts (union sh a b) x <-> pts a x \/ pts b x;
    l_diff : forall a b x, pts (diff sh a b) x <-> pts a x /\ ~ pts b x;
    l_empty : forall x, ~ pts (empty sh) x;
    l_dec : forall a x, pts a x \/ ~ pts a x;
    l_area : forall a b, (forall x, pts a x -> pts b x) -> area sh a <= area sh b;
    l_area_empty : area sh (empty sh) = 0;
    l_valid : forall a, is_valid sh a = true }.
(** the operations of from_data do not change what they should not *)
Record faithful {G X} (dr : drawing G) (pts : G -> X -> Prop) : Prop := Faithful
  { f_oriented : forall a x, pts (oriented dr a) x <-> pts a x;
    f_members : forall a x, pts a x <-> exists b, In b (members dr a) /\ pts b x;
    f_rounded : forall r a x, pts (rounded dr r a) x <-> pts a x }.
Definition covered {G X} (pts : G -> X -> Prop) (l : list (string * G)) (x : X) : Prop :=
  exists n g, In (n, g) l /\ pts g x.

(** the points of the given polygons and the polygons cut to the square *)
Definition drawn {G X} (dr : drawing G) (pts : G -> X -> Prop) (polys : list (string * list p2)) (x : X) : Prop :=
  exists np g, In np polys /\ In g (polygonize dr (snd np)) /\ pts g x.
Definition pieces {G} (sh : shapely G) (dr : drawing G) (sq : G) (polys : list (string * list p2)) : list (string * G) :=
  flat_map (fun np => map (fun g => (fst np, inter sh (oriented dr g) sq)) (polygonize dr (snd np))) polys.

(** ** C62 *)
Definition is_ccw (p : list p2) : bool := if Rlt_dec 0 (signed_area p) then true else false.
Definition is_cw (p : list p2) : bool := if Rlt_dec (signed_area p) 0 then true else false.
Definition ccw_path (p : list p2) : Prop := 0 < signed_area p.
Definition cw_path (p : list p2) : Prop := signed_area p < 0.
Definition size (p : list p2) : R := Rabs (signed_area p).
Definition encloses (contains : list p2 -> list p2 -> bool) (e i : list p2) : Prop :=
  contains e i = true /\ size i < size e.

(** ** C63: rings repeat their first point at the end *)
Definition closed_ring (r : list p2) : Prop := exists v l, r = v :: l ++ [v].
(** [path] has the vertices of the ring in the same or in the opposite order *)
Definition opened (r path : list p2) : Prop :=
  exists v l, path = v :: l /\ (r = v :: l ++ [v] \/ r = rev (v :: l ++ [v])).

Definition proper_rings (ccw : list p2 -> bool) (p : polygon) : Prop :=
  forall r, In r (exterior p :: interiors p) -> closed_ring r /\ (ccw r = true <-> 0 < signed_area r) /\ signed_area r <> 0.
(** the paths of a polygon: its exterior counter-clockwise, then its holes clockwise *)
Definition paths_for (p : polygon) (paths : list (list p2)) : Prop :=
  exists e hs, paths = e :: hs /\ opened (exterior p) e /\ signed_area e = size (exterior p) /\
  Forall2 (fun h r => opened r h /\ signed_area h = - size r) hs (interiors p).

(** ** C64: elements of a structure by kind *)
Definition selected (name : option string) (l : list (string * list element)) (stru : list element) : Prop :=
  exists pre n post, l = pre ++ (n, stru) :: post /\
  match name with None => pre = [] | Some m => n = m /\ ~ In m (map fst pre) end.
Definition to_length (unit scale : R) (xy : list p2) : list p2 := map (fun p => (fst p * unit / scale, snd p * unit / scale)) xy.
Definition boundaries (keep : Z * Z -> Prop) (unit scale : R) (stru : list element) (out : list (string * list p2)) : Prop :=
  exists keepb, (forall ij, keepb ij = true <-> keep ij) /\
  out = flat_map (fun e => match e with Boundary ij xy n => if keepb ij then [(n, to_length unit scale xy)] else [] | _ => [] end) stru.
Definition paths_on (keep : Z * Z -> Prop) (unit scale : R) (stru : list element) (out : list (list p2)) : Prop :=
  exists keepb, (forall ij, keepb ij = true <-> keep ij) /\
  out = flat_map (fun e => match e with Path ij xy => if (2 <=? length xy)%nat && keepb ij then [to_length unit scale xy] else [] | _ => [] end) stru.
Definition texts_on (keep : Z -> Prop) (unit scale : R) (stru : list element) (out : list (string * p2)) : Prop :=
  exists keepb, (forall i, keepb i = true <-> keep i) /\
  out = flat_map (fun e => match e with Text ij (p :: _) s => if keepb (fst ij) then [(s, (fst p * unit / scale, snd p * unit / scale))] else [] | _ => [] end) stru.
Definition all_or {A} (o : option (list A)) (x : A) : Prop := match o with None => True | Some l => In x l end.

(** ** C65 *)
(** the distinct names, in the order of their first occurrence *)
Fixpoint firsts (seen : list string) (l : list string) : list string :=
  match l with
  | [] => []
  | n :: r => if existsb (String.eqb n) seen then firsts seen r else n :: firsts (n :: seen) r
  end.
Definition with_name {G} (n : string) (l : list (string * G)) : list G :=
  map snd (filter (fun np => String.eqb (fst np) n) l).
(** all polygons with their names *)
Definition flat (l : list (string * shape)) : list (string * polygon) :=
  flat_map (fun np => map (fun p => (fst np, p)) (geoms (snd np))) l.

(** the polygon without the holes that fail the test *)
Definition trim_holes (test : string -> list p2 -> bool) (np : string * polygon) : string * polygon :=
  (fst np, Polygon (exterior (snd np)) (filter (test (fst np)) (interiors (snd np)))).

(** ** C60: a quarter turn counter-clockwise *)
Definition quarter (p : p2) : p2 := (- snd p, fst p).
Fixpoint quarters (k : nat) (p : p2) : p2 := match k with O => p | S k' => quarter (quarters k' p) end.
