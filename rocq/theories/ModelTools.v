(** Model of electrode/adaptive.py 40-150, electrode/adjust.py 19-166,
    electrode/xic.py 26-45 and of [shaped], electrode/utils.py 29-43. *)
From Coq Require Import Ascii.
From Verif Require Import Base ModelExpr ModelField ModelGeom.
Open Scope R_scope.
Notation length := List.length.

(** ** adaptive.py *)
(** paths_to_mesh, 44-59: points, segments and their markers.  The casts to
    C types are dropped; [np.concatenate] of nothing is a ValueError. *)
Definition mesh_segments (st : nat * list (nat * nat) * list nat) (ip : nat * list p2) : nat * list (nat * nat) * list nat :=
  let '(n, segments, markers) := st in
  let si := map (fun k => n + k)%nat (seq 0 (length (snd ip))) in
  (n + length (snd ip), segments ++ combine (roll_right si 0) si, markers ++ map (fun _ => fst ip + 2) si)%nat.
Definition paths_to_mesh (paths : list (list p2)) : res (list p2 * list (nat * nat) * list nat) :=
  match paths with
  | [] => Raise ValueError
  | _ =>
      let '(_, segments, markers) := fold_left mesh_segments (combine (seq 0 (length paths)) paths) (0, [], [])%nat in
      Ok (concat paths, segments, markers)
  end.

(** transformed_copy, 62-64: 4x4 matrices, of which the rows 0 and 1 and the
    columns 0, 1 and 3 are used; [[::sign]] for sign 1 and -1 *)
Definition transformed_copy (transformations : list ((nat -> nat -> R) * bool)) (path : list p2) : list (list p2) :=
  map (fun ts : (nat -> nat -> R) * bool => let t := fst ts in
    let x (p : p2) := t 0%nat 0%nat * fst p + t 0%nat 1%nat * snd p + t 0%nat 2%nat * 0 + t 0%nat 3%nat * 1 in
    let y (p : p2) := t 1%nat 0%nat * fst p + t 1%nat 1%nat * snd p + t 1%nat 2%nat * 0 + t 1%nat 3%nat * 1 in
    let q := map (fun p : p2 => (x p, y p)) path in
    if snd ts then q else rev q) transformations.

(** adapt_mesh, 125-150.  [triangulate] is the external mesher: it gets the
    mesh made by paths_to_mesh or the last mesh with areas.  [optimize] is
    System.optimize: an electrode list to its potentials and the value c.
    [electrode_of] is [PolygonPixelElectrode(paths=symmetry(p))].  Rows of
    [triangles] and [neighbors] have three entries.  [take] (149) wraps
    negative indices.  [None] for a run that is longer than [fuel]. *)
Record mesh := Mesh { mpoints : list p2; triangles : list (nat * nat * nat); neighbors : list (Z * Z * Z) }.
Inductive mesh_input :=
| Initial (m : list p2 * list (nat * nat) * list nat)
| Refined (m : mesh) (triangleareas : list R).
Fixpoint collect_res {A} (l : list (res A)) : res (list A) :=
  match l with [] => Ok [] | x :: r => bind x (fun a => bind (collect_res r) (fun b => Ok (a :: b))) end.
Definition corners (m : mesh) (t : nat * nat * nat) : res (list p2) :=
  let '(a, b, c) := t in
  bind (py_index (mpoints m) (Z.of_nat a)) (fun a => bind (py_index (mpoints m) (Z.of_nat b)) (fun b =>
  bind (py_index (mpoints m) (Z.of_nat c)) (fun c => Ok [a; b; c]))).
(** 148-150, for one triangle of potential [p] *)
Definition max_change (potentials : list R) (p : R) (nb : Z * Z * Z) : res R :=
  let '(a, b, c) := nb in
  bind (py_index potentials a) (fun a => bind (py_index potentials b) (fun b => bind (py_index potentials c) (fun c =>
  Ok (Rmax (Rabs (a - p)) (Rmax (Rabs (b - p)) (Rabs (c - p))))))).
Definition new_areas (threshold up down : R) (areas potentials : list R) (nbs : list (Z * Z * Z)) : res (list R) :=
  if negb ((length potentials =? length nbs) && (length areas =? length nbs))%nat then Raise ValueError
  else collect_res (map (fun pan => bind (max_change potentials (fst (fst pan)) (snd pan)) (fun m =>
    Ok (if Rlt_dec threshold m then snd (fst pan) / down else snd (fst pan) * up)))
    (combine (combine potentials areas) nbs)).
Definition best : Type := option (list electrode * list R * R).
Fixpoint adapt_loop (triangulate : mesh_input -> mesh) (optimize : list electrode -> res (list R * R))
    (electrode_of : list p2 -> electrode) (fixed : list electrode) (threshold up down : R) (nmax : nat)
    (fuel : nat) (args : mesh_input) (svc : best) : option (res best) :=
  match fuel with
  | O => None
  | S fuel' =>
      let m := triangulate args in
      if (nmax <? length (triangles m))%nat then Some (Ok svc)
      else
        match collect_res (map (corners m) (triangles m)) with
        | Raise e => Some (Raise e)
        | Ok paths =>
            let areas := map (fun p => fst (area_centroid p)) paths in
            let s := fixed ++ map electrode_of paths in
            match optimize s with
            | Raise e => Some (Raise e)
            | Ok (v, c) =>
                match new_areas threshold up down areas (skipn (length fixed) v) (neighbors m) with
                | Raise e => Some (Raise e)
                | Ok ta => adapt_loop triangulate optimize electrode_of fixed threshold up down nmax fuel'
                             (Refined m ta) (Some (s, v, c))
                end
            end
        end
  end.
Definition adapt_mesh triangulate optimize electrode_of fixed threshold up down nmax (variable : list (list p2)) (fuel : nat)
    : option (res best) :=
  match paths_to_mesh variable with
  | Raise e => Some (Raise e)
  | Ok m => adapt_loop triangulate optimize electrode_of fixed threshold up down nmax fuel (Initial m) None
  end.

(** ** adjust.py.  A dictionary is a list of pairs with distinct keys, in the
    order of insertion.  [X] are positions, [C] curvatures. *)
Definition dict (V : Type) : Type := list (string * V).
Fixpoint dict_set {V} (d : dict V) (k : string) (v : V) : dict V :=
  match d with
  | [] => [(k, v)]
  | (k', v') :: r => if String.eqb k' k then (k', v) :: r else (k', v') :: dict_set r k v
  end.
Definition dict_get {V} (d : dict V) (k : string) : res V :=
  match find (fun kv => String.eqb (fst kv) k) d with Some kv => Ok (snd kv) | None => Raise KeyError end.
Definition in_dict {V} (d : dict V) (k : string) : bool := existsb (fun kv => String.eqb (fst kv) k) d.
Record adjust (X C : Type) := Adjust
  { asys : list electrode; avolts : dict (list R); aconf : list (list string);
    axms : list X; acurves : list C; apropose : option (list R * X * C) }.
Arguments Adjust {X C}. Arguments asys {X C}. Arguments avolts {X C}. Arguments aconf {X C}.
Arguments axms {X C}. Arguments acurves {X C}. Arguments apropose {X C}.
(** a method changes the object and returns or raises *)
Definition method X C A : Type := adjust X C -> adjust X C * res A.
(** [__init__], 24-29 (with E_config, xms and curves of set_move_init,
    31-55, given) *)
Definition adjust_init {X C} (system : list electrode) (conf : list (list string)) (xms : list X) (curves : list C) : adjust X C :=
  Adjust system (fold_left (fun d e => dict_set d (ename e) []) system []) conf xms curves None.
Definition with_sys {X C} (a : adjust X C) s := Adjust s (avolts a) (aconf a) (axms a) (acurves a) (apropose a).
Definition with_volts {X C} (a : adjust X C) v := Adjust (asys a) v (aconf a) (axms a) (acurves a) (apropose a).
(** [self.system[ele].dc = v]: the first electrode of that name; [None] has
    no attribute dc (system.py 134-139) *)
Fixpoint set_dc (s : list electrode) (n : string) (v : R) : res (list electrode) :=
  match s with
  | [] => Raise AttributeError
  | e :: r => if String.eqb (ename e) n then Ok (Electrode (ename e) v (erf e) (egeom e) :: r)
              else bind (set_dc r n v) (fun r => Ok (e :: r))
  end.
(** 71-72 *)
Fixpoint set_all {X C} (config : dict R) (a : adjust X C) : adjust X C * res unit :=
  match config with
  | [] => (a, Ok tt)
  | (n, v) :: r =>
      match set_dc (asys a) n v with
      | Ok s => set_all r (with_sys a s)
      | Raise e => (a, Raise e)
      end
  end.
(** 77-78 *)
Fixpoint append_all {X C} (config : dict R) (a : adjust X C) : adjust X C * res unit :=
  match config with
  | [] => (a, Ok tt)
  | (n, v) :: r =>
      match dict_get (avolts a) n with
      | Ok h => append_all r (with_volts a (dict_set (avolts a) n (h ++ [v])))
      | Raise e => (a, Raise e)
      end
  end.
(** 79-81; [keys] are the keys of volts in order *)
Fixpoint repeat_last {X C} (config : dict R) (keys : list string) (a : adjust X C) : adjust X C * res unit :=
  match keys with
  | [] => (a, Ok tt)
  | n :: r =>
      if in_dict config n then repeat_last config r a
      else match dict_get (avolts a) n with
           | Raise e => (a, Raise e)
           | Ok h => match py_index h (-1) with
                     | Raise e => (a, Raise e)
                     | Ok v => repeat_last config r (with_volts a (dict_set (avolts a) n (h ++ [v])))
                     end
           end
  end.
(** set_volts, 67-82 *)
Definition set_volts {X C} (config : dict R) (save : bool) : method X C unit := fun a =>
  match set_all config a with
  | (a, Raise e) => (a, Raise e)
  | (a, Ok _) =>
      if save then
        match append_all config a with
        | (a, Raise e) => (a, Raise e)
        | (a, Ok _) => repeat_last config (map fst (avolts a)) a
        end
      else (a, Ok tt)
  end.
(** construct_config, 57-65 *)
Fixpoint config_group (volts : dict (list R)) (eles : list string) (dv : R) (config : dict R) : res (dict R) :=
  match eles with
  | [] => Ok config
  | n :: r => bind (dict_get volts n) (fun h => bind (py_index h (-1)) (fun v => config_group volts r dv (dict_set config n (v + dv))))
  end.
Fixpoint config_loop (volts : dict (list R)) (l : list (list string * R)) (config : dict R) : res (dict R) :=
  match l with
  | [] => Ok config
  | (eles, dv) :: r => bind (config_group volts eles dv config) (config_loop volts r)
  end.
Definition construct_config {X C} (a : adjust X C) (deltaV : list R) : res (dict R) :=
  config_loop (avolts a) (combine (aconf a) deltaV) [].
(** volt_change, 99-124, for a point where the gradients are taken:
    [nonhomo] and the coefficients; [solve] is scipy's, a column vector *)
Definition gradient1 (g : geom) (x : p3) : res row :=
  bind (potential g [x] 1 1 None) (fun o => py_index o 0).
Definition find_electrode (s : list electrode) (n : string) : res electrode :=
  match find (fun e => String.eqb (ename e) n) s with Some e => Ok e | None => Raise AttributeError end.
Fixpoint coef_column (s : list electrode) (x : p3) (eles : list string) (col : row) : res row :=
  match eles with
  | [] => Ok col
  | n :: r => bind (find_electrode s n) (fun e => bind (gradient1 (egeom e) x) (fun g => coef_column s x r (add_into col g)))
  end.
Definition volt_change {X C} (solve : list row -> list R -> res (list R)) (a : adjust X C) (x : p3) (nonhomo : list R) : res (list R) :=
  bind (collect_res (map (fun eles => coef_column (asys a) x eles [0; 0; 0]) (aconf a))) (fun cols => solve cols nonhomo).
(** propose_move, 141-148; [minimum] and [modes] are those of the system with
    its present voltages *)
Definition propose_move {X C} (minimum : list electrode -> X -> res X) (modes : list electrode -> X -> res C) (xm0 : X)
    (deltaV : res (list R)) : method X C unit := fun a =>
  match deltaV with
  | Raise e => (a, Raise e)
  | Ok dv =>
      match construct_config a dv with
      | Raise e => (a, Raise e)
      | Ok config =>
          match set_volts config false a with
          | (a, Raise e) => (a, Raise e)
          | (a, Ok _) =>
              match minimum (asys a) (last (axms a) xm0) with
              | Raise e => (a, Raise e)
              | Ok x => match modes (asys a) x with
                        | Raise e => (a, Raise e)
                        | Ok c => (Adjust (asys a) (avolts a) (aconf a) (axms a) (acurves a) (Some (dv, x, c)), Ok tt)
                        end
              end
          end
      end
  end.
(** next_step, 150-174, with deltaV None or a list.  Without a proposal,
    deltaV stays None and [zip] fails (161); with a given deltaV the name
    [userown] is unbound (163); [self.Volts] does not exist (170). *)
Definition next_step {X C} (deltaV : option (list R)) (accept : bool) : method X C unit := fun a =>
  if negb accept then (a, Raise AttributeError)
  else
    match deltaV, apropose a with
    | None, None => (a, Raise TypeError)
    | None, Some (dv, x, c) =>
        match construct_config a dv with
        | Raise e => (a, Raise e)
        | Ok config =>
            match set_volts config true a with
            | (a, Raise e) => (a, Raise e)
            | (a, Ok _) => (Adjust (asys a) (avolts a) (aconf a) (axms a ++ [x]) (acurves a ++ [c]) None, Ok tt)
            end
        end
    | Some dv, _ =>
        match construct_config a dv with
        | Raise e => (a, Raise e)
        | Ok config =>
            match set_volts config true a with
            | (a, Raise e) => (a, Raise e)
            | (a, Ok _) => (a, Raise UnboundLocalError)
            end
        end
    end.

(** ** xic.py 26-45.  Lines are ASCII strings, given without bound; [float]
    is Python's.  [py3]: in Python 3, [map] is an iterator and multiplying
    the array of them fails, as it does for an array of lists of unequal
    length. *)
Definition is_space (c : ascii) : bool :=
  let n := nat_of_ascii c in ((n =? 32) || ((9 <=? n) && (n <=? 13)) || ((28 <=? n) && (n <=? 31)))%nat.
Fixpoint chars (s : string) : list ascii := match s with EmptyString => [] | String c r => c :: chars r end.
Fixpoint dropwhile {A} (f : A -> bool) (l : list A) : list A :=
  match l with [] => [] | x :: r => if f x then dropwhile f r else l end.
Definition rstrip (l : list ascii) : list ascii := rev (dropwhile is_space (rev l)).
(** [str.split()]; [word] is the word being read *)
Fixpoint split_words (word : list ascii) (l : list ascii) : list (list ascii) :=
  match l with
  | [] => match word with [] => [] | _ => [word] end
  | c :: r => if is_space c then (match word with [] => split_words [] r | _ => word :: split_words [] r end)
              else split_words (word ++ [c]) r
  end.
Definition split (l : list ascii) : list (list ascii) := split_words [] l.
Definition endswith (c : ascii) (l : list ascii) : bool :=
  match rev l with [] => false | d :: _ => Ascii.eqb d c end.
Definition to_array (float : list ascii -> res R) (py3 : bool) (p : list (list (list ascii))) : res (list (list R)) :=
  if py3 then Raise TypeError
  else bind (collect_res (map (fun i => collect_res (map float i)) p)) (fun a =>
       if forallb (fun r => length r =? length (hd [] a))%nat a then Ok (map (map (fun v => v * / 10 ^ 8)) a) else Raise TypeError).
Fixpoint xic_loop (float : list ascii -> res R) (py3 : bool) (xic : list (list ascii)) (p : option (list (list (list ascii))))
    (es : list (list (list R))) : res (list (list (list R))) :=
  match xic with
  | [] => Ok es
  | line :: rest =>
      let line := rstrip line in
      match line with
      | [] => Raise IndexError
      | c :: _ =>
          if Ascii.eqb c "P" then xic_loop float py3 rest (Some [tl (split line)]) es
          else if Ascii.eqb c " " then
            match p with
            | None => Raise UnboundLocalError
            | Some q =>
                if negb (endswith ";" line) then xic_loop float py3 rest (Some (q ++ [split line])) es
                else let q := q ++ [split (removelast line)] in
                     bind (to_array float py3 q) (fun e => xic_loop float py3 rest (Some q) (es ++ [e]))
            end
          else xic_loop float py3 rest p es
      end
  end.
Definition xic_to_list float py3 (xic : list (list ascii)) : res (list (list (list R))) := xic_loop float py3 xic None [].

(** ** shaped, utils.py 36-42.  An array is its shape and its entries in row
    major order.  [func] gets the points as rows. *)
Record array := Array { ashape : list nat; adata : list R }.
Definition prod (s : list nat) : nat := fold_right Nat.mul 1%nat s.
Definition atleast_2d (a : array) : array :=
  match ashape a with
  | [] => Array [1; 1]%nat (adata a)
  | [n] => Array [1; n]%nat (adata a)
  | _ => a
  end.
(** the transpose of the array reshaped to [(n, l)] *)
Definition columns (n l : nat) (data : list R) : list (list R) :=
  map (fun j => map (fun i => nth (i * l + j) data 0) (seq 0 n)) (seq 0 l).
Definition shaped (func : list (list R) -> res array) (xyz : array) : res array :=
  let xyz := atleast_2d xyz in
  match ashape xyz with
  | [] => Raise IndexError
  | O :: _ => Raise ValueError
  | n :: s =>
      bind (func (columns n (prod s) (adata xyz))) (fun v =>
      let s' := s ++ tl (ashape v) in
      if (prod s' =? length (adata v))%nat then Ok (Array s' (adata v)) else Raise ValueError)
  end.
