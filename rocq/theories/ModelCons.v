(** Model of electrode/pattern_constraints.py, the VoltageConstraint of
    electrode/constraints.py 76-142 and of System.shims, solve, optimize and
    group (electrode/system.py 656-851). *)
From Verif Require Import Base ModelUtils ModelField.
Open Scope R_scope.
Notation length := List.length.

(** ** cvxopt.  An affine (or convex piecewise linear) function of the
    optimisation variable is its value at each candidate; a vector valued one
    has one component per row.  A constraint compares every component with a
    number. *)
Inductive cop := CEq | CLe | CGe.
Definition holds_op (o : cop) (a b : R) : Prop :=
  match o with CEq => a = b | CLe => a <= b | CGe => b <= a end.
Record ctr (V : Type) := Ctr { lhs : V -> list R; op : cop; rhs : R }.
Arguments Ctr {V}. Arguments lhs {V}. Arguments op {V}. Arguments rhs {V}.
Definition satisfies {V} (c : ctr V) (v : V) : Prop :=
  forall x, In x (lhs c v) -> holds_op (op c) x (rhs c).
Definition dot (a b : list R) : R := sumR (map2 Rmult a b).

(** ** PatternRangeConstraint, pattern_constraints.py 66-79; [n] is the size
    of the variable, [variables[index]] indexes like a python list. *)
Definition opt_eqb (a b : option R) : bool :=
  match a, b with
  | Some x, Some y => if Req_EM_T x y then true else false
  | None, None => true
  | _, _ => false
  end.
Definition is_some {A} (a : option A) : bool := match a with Some _ => true | None => false end.
Definition pattern_range (mn mx : option R) (index : option Z) (n : nat) : res (list (ctr (list R))) :=
  bind (match index with
        | None => Ok (fun v : list R => v)
        | Some i => bind (py_index (seq 0 n) i) (fun j => Ok (fun v : list R => [nth j v 0]))
        end) (fun variables =>
  Ok (if (is_some mn || is_some mx)%bool then
        if opt_eqb mn mx then match mn with Some m => [Ctr variables CEq m] | None => [] end
        else match mn with Some m => [Ctr variables CGe m] | None => [] end
          ++ match mx with Some m => [Ctr variables CLe m] | None => [] end
      else [])).

(** ** SingleValueConstraint, 104-124; [get] is the coefficient vector. *)
Definition single_objective (value : option R) (get : res (list R)) : res (list (list R * R)) :=
  match value with
  | None => Ok []
  | Some v => bind get (fun c => Ok [(c, v)])
  end.
Definition single_constraints (mn mx offset : option R) (get : res (list R)) : res (list (ctr (list R))) :=
  if (is_some offset || is_some mn || is_some mx)%bool then
    bind get (fun c =>
    let v := fun variables => [dot c variables] in
    Ok (match offset with Some o => [Ctr v CEq o] | None => [] end
     ++ match mn with Some m => [Ctr v CGe m] | None => [] end
     ++ match mx with Some m => [Ctr v CLe m] | None => [] end))
  else Ok [].

(** ** PotentialObjective.get, 154-163 (and the index lookup of the
    constructor, 150); one coefficient per electrode.  Rows are flattened
    tensors in row-major order. *)
Definition flatten (n : nat) (T : tensor) : list R := map T (product3 n).
Definition pick (c : row) (e : ent) : res R :=
  match e with
  | Sel i => py_index c (Z.of_nat i)
  | Lap a b => bind (py_index c (Z.of_nat a)) (fun x => bind (py_index c (Z.of_nat b)) (fun y => Ok (- (x + y))))
  end.
Definition rotate_row (order : nat) (rotation : option mat) (c : row) : res row :=
  match rotation with
  | None => Ok c
  | Some r => bind (expand_tensor c) (fun t =>
      select_tensor order (flatten order (rotate_tensor order (tensor_of t) r)))
  end.
Definition potential_get (s : list electrode) (x : p3) (derivative : string) (rotation : option mat)
    : res (list R) :=
  bind (deriv_to_reduced_idx derivative) (fun reduced_idx =>
  let order := String.length derivative in
  bind (individual_potential s [x] order) (fun c =>
  bind (collect (map (fun rows => rotate_row order rotation (nth 0 rows [])) c)) (fun c =>
  collect (map (fun row => pick row reduced_idx) c)))).

(** ** MultiPotentialObjective.get, 186-191: the components are given by their
    value and coefficients.  Without any contribution the code returns the
    number 0. instead of [n] zeros. *)
Fixpoint multi_get (c : list R) (components : list (option R * res (list R))) : res (list R) :=
  match components with
  | [] => Ok c
  | (value, get) :: r =>
      bind (single_objective value get) (fun objs =>
      multi_get (fold_left (fun c cv => map2 Rplus c (map (Rmult (snd cv)) (fst cv))) objs c) r)
  end.

(** ** VoltageDerivativeConstraint, 194-237.  The variables are a sequence of
    vectors (electrode index -> voltage). *)
Definition vec := nat -> R.
Definition vsub (a b : vec) : vec := fun e => a e - b e.
Definition vscale (c : R) (a : vec) : vec := fun e => c * a e.
Definition vzero : vec := fun _ => 0.
(** 208-209: [obj[delta:0:-1] + obj + obj[-2:-2-delta:-1]] *)
Definition mirror_extend (delta : nat) (obj : list vec) : list vec :=
  rev (firstn delta (tl obj)) ++ obj ++ firstn delta (tl (rev obj)).
(** 210-211 *)
Definition differences (delta : nat) (obj : list vec) : list vec :=
  map (fun i => vsub (nth (i + delta) obj vzero) (nth i obj vzero)) (seq 0 (length obj - delta)).
Fixpoint vd_loop (smooth : bool) (delta : nat) (is : list nat) (obj : list vec) : list vec :=
  match is with
  | [] => obj
  | i :: r =>
      vd_loop smooth delta r (differences delta
        (if (smooth && (i mod 2 =? 0)%nat)%bool then mirror_extend delta obj else obj))
  end.
(** 205-212; a zero [delta] divides by zero, but only if there is an entry *)
Definition vd_get (order delta : nat) (smooth : bool) (variables : list vec) : res (list vec) :=
  let obj := vd_loop smooth delta (seq 0 order) variables in
  match obj with
  | [] => Ok []
  | _ => if (delta ^ order =? 0)%nat then Raise ZeroDivisionError
         else Ok (map (vscale (1 / INR (delta ^ order))) obj)
  end.
(** 214-224: the norm over the [m] electrodes; [cvxopt.modeling.max] of a
    vector is its largest component. *)
Inductive vnorm := NOne | NInf | NOther.
Definition vabs (a : vec) : vec := fun e => Rabs (a e).
Fixpoint vmax (a : vec) (m : nat) : R :=
  match m with 0%nat => 0 | 1%nat => a 0%nat | S k => Rmax (vmax a k) (a k) end.
Definition vsum (a : vec) (m : nat) : R := sumR (map a (seq 0 m)).
Definition vd_coef (m order delta : nat) (smooth ab : bool) (norm : vnorm) (variables : list vec) : res (list R) :=
  bind (vd_get order delta smooth variables) (fun vs =>
  collect (map (fun v => let v := if ab then vabs v else v in
     match norm with NOne => Ok (vsum v m) | NInf => Ok (vmax v m) | NOther => Raise ValueError end) vs)).
(** 226-229, 231-237: what the objective and the constraints say about a
    voltage sequence *)
Definition vd_objective (weight : R) (coefs : list R) : R :=
  if Req_EM_T weight 0 then 0 else sumR (map (fun v => v * weight) coefs).
Definition vd_admits (mx mn : option R) (coefs : list R) : Prop :=
  (forall m, mx = Some m -> Forall (fun v => v <= m) coefs) /\
  (forall m, mn = Some m -> Forall (fun v => m <= v) coefs).

(** ** VoltageConstraint.values, constraints.py 91-142.  Python slices with
    integer bounds. *)
Definition slice_pos (n : nat) (i : Z) : nat :=
  let j := (if (i <? 0)%Z then (i + Z.of_nat n)%Z else i) in
  Nat.min n (Z.to_nat j).
Definition slice {A} (l : list A) (lo hi : option Z) : list A :=
  let a := match lo with Some i => slice_pos (length l) i | None => 0%nat end in
  let b := match hi with Some i => slice_pos (length l) i | None => length l end in
  firstn (b - a) (skipn a l).
Fixpoint zipw (rows : list (list vec)) (n : nat) : list (list vec) :=
  match n with
  | 0%nat => []
  | S k => if existsb (fun r => match r with [] => true | _ => false end) rows then []
           else map (hd vzero) rows :: zipw (map (@tl vec) rows) k
  end.
Definition comb (cs : list R) (vs : list vec) : vec := fun e => sumR (map2 (fun c v => c * v e) cs vs).
Definition stencil (cs : list R) (rows : list (list vec)) : list vec :=
  map (fun vs => vabs (comb cs vs)) (zipw rows (length (hd [] rows))).
Definition vc_values (order delta : Z) (smooth : bool) (variables : list vec) : res (list vec) :=
  let sl lo hi := slice variables lo hi in
  let d := delta in
  match order with
  | (-1)%Z => Ok variables
  | 0%Z => Ok (map vabs variables)
  | 1%Z => Ok (stencil [1; -1] [sl (Some d) None; sl None (Some (- d)%Z)])
  | 2%Z =>
      let obj := stencil [1; -2; 1] [sl None (Some (-2 * d)%Z); sl (Some d) (Some (- d)%Z); sl (Some (2 * d)%Z) None] in
      if smooth then
        bind (py_index variables 0) (fun v0 => bind (py_index variables d) (fun vd =>
        bind (py_index variables (-1)) (fun w0 => bind (py_index variables (- d - 1)) (fun wd =>
        Ok (obj ++ [vabs (comb [2; -2] [v0; vd]); vabs (comb [2; -2] [w0; wd])])))))
      else Ok obj
  | 3%Z => Ok (stencil [1; -3; 3; -1] [sl (Some (3 * d)%Z) None; sl (Some (2 * d)%Z) (Some (- d)%Z);
                                      sl (Some d) (Some (-2 * d)%Z); sl None (Some (-3 * d)%Z)])
  | 4%Z =>
      let obj := stencil [1; -4; 6; -4; 1] [sl (Some (4 * d)%Z) None; sl (Some (3 * d)%Z) (Some (- d)%Z);
                    sl (Some (2 * d)%Z) (Some (-2 * d)%Z); sl (Some d) (Some (-3 * d)%Z); sl None (Some (-4 * d)%Z)] in
      if smooth then
        bind (py_index variables 0) (fun v0 => bind (py_index variables d) (fun vd => bind (py_index variables (2 * d)) (fun ve =>
        bind (py_index variables (-1)) (fun w0 => bind (py_index variables (- d - 1)) (fun wd => bind (py_index variables (-2 * d - 1)) (fun we =>
        Ok (obj ++ [vabs (comb [6; -8; 2] [v0; vd; ve]); vabs (comb [6; -8; 2] [w0; wd; we])])))))))
      else Ok obj
  | _ => Raise UnboundLocalError
  end.
(** 135-142 and 42-50: the yielded values [(norm(v) - range)*factor] and the
    constraints [<= 0] of [weight = 0, equal = False]; with norm "none" a
    value is a vector of [m] components. *)
Definition vc_norm (m : nat) (norm : option vnorm) (v : vec) : list R :=
  match norm with
  | None => map v (seq 0 m)
  | Some NInf => [vmax v m]
  | Some NOne => [vsum v m]
  | Some NOther => map v (seq 0 m)
  end.
Definition vc_yield (m : nat) (norm : option vnorm) (range : option R) (factor : R) (obj : list vec) : list (list R) :=
  map (fun v => map (fun x => match range with Some r => (x - r) * factor | None => x * factor end) (vc_norm m norm v)) obj.
Definition vc_admits (values : list (list R)) : Prop := Forall (Forall (fun x => x <= 0)) values.

(** ** System.optimize, system.py 783-807.  A constraint object offers
    objectives (coefficients, value) and constraints. *)
Definition cobj : Type := (list (list R * R) * list (ctr (list R)))%type.
Definition matrix := list (list R).
(** [pinv B b] is [np.dot(np.linalg.pinv(B, rcond), b)]; [solver g cs] is a
    point cvxopt returns with status "optimal" when maximising [dot g p]
    subject to [cs], or None. *)
Definition g2_of (g : list R) : R := dot g g.
Definition b1_rows (B : matrix) (b : list R) (g : list R) : matrix :=
  map2 (fun row bi => map2 (fun x gi => x - bi * gi / g2_of g) row g) B b.
Definition opt_ctrs (constraints : list cobj) (g : list R) : list (ctr (list R)) :=
  let obj := flat_map fst constraints in
  let B1 := removelast (b1_rows (map fst obj) (map snd obj) g) in
  flat_map snd constraints ++ [Ctr (fun p => map (fun row => dot row p) B1) CEq 0].
Definition optimize (pinv : matrix -> list R -> list R)
    (solver : list R -> list (ctr (list R)) -> option (list R)) (constraints : list cobj) : res (list R * R) :=
  let obj := flat_map fst constraints in
  match obj with
  | [] => Raise (OtherExn 0)
  | _ =>
      let g := pinv (map fst obj) (map snd obj) in
      match solver g (opt_ctrs constraints g) with
      | None => Raise ValueError
      | Some p => Ok (p, dot p g / g2_of g)
      end
  end.

(** ** System.shims, system.py 688-700.  The state is the [value] attribute of
    each objective (the objects are taken to be distinct); [opt] is the call
    of [optimize] in that state. *)
Definition set_value (i : nat) (v : option R) (vals : list (option R)) : list (option R) :=
  set_nth i v vals.
Fixpoint shims_loop (opt : list (option R) -> res (list R * R)) (is : list nat) (vals : list (option R))
    (vectors : list (list R)) : list (option R) * res (list (list R)) :=
  match is with
  | [] => (vals, Ok vectors)
  | i :: r =>
      let vals := set_value i (Some 1) vals in
      match opt vals with
      | Raise e => (vals, Raise e)
      | Ok (p, c) => shims_loop opt r (set_value i (Some 0) vals) (vectors ++ [map (fun x => x / c) p])
      end
  end.
(** [k] requested derivatives start at value 0, then the user's objectives *)
Definition shims (opt : list (option R) -> res (list R * R)) (k : nat) (user : list (option R))
    : list (option R) * res (list (list R)) :=
  let vals := repeat (Some 0) k ++ user in
  shims_loop opt (seq 0 (length vals)) vals [].

(** ** System.solve, system.py 741-753: the objective handed to the solver.
    A constraint offers the pairs (coefficient, value) of its objective, each
    coefficient being a number at the candidate voltages. *)
Definition terms := list (R * R).
Definition term_sum (t : terms) : R := sumR (map (fun cv => fst cv * snd cv) t).
Definition solve_objective (local : list (list terms)) (global : list terms) : R :=
  let obj := fold_left (fun obj ci => fold_left (fun _ cj => term_sum cj) ci obj) local 0 in
  fold_left (fun obj ci => obj + term_sum ci) global obj.

(** ** System.group, system.py 831-851 with thresholds given.  [None] stands
    for the flanking infinities; the mean of no voltages is nan in numpy and
    0/0 here. *)
Definition bins (thresholds : list R) : list (option R * option R) :=
  let ts := map Some thresholds in combine (None :: ts) (ts ++ [None]).
Definition in_range (bin : option R * option R) (v : R) : bool :=
  (match fst bin with None => true | Some a => if Rle_dec a v then true else false end &&
   match snd bin with None => true | Some b => if Rlt_dec v b then true else false end)%bool.
Definition mean (l : list R) : R := sumR l / INR (length l).
Definition paths_of (e : electrode) : res (list (list p2)) :=
  match egeom e with EPolygon paths _ _ => Ok paths | _ => Raise AttributeError end.
Definition group_bin (s : list electrode) (voltages : list R) (bin : option R * option R) : res electrode :=
  let good := filter (fun j => in_range bin (nth j voltages 0)) (seq 0 (length voltages)) in
  bind (collect (map (fun j => bind (py_index s (Z.of_nat j)) (fun el =>
                               bind (paths_of el) (fun ps => Ok (el, ps)))) good)) (fun els =>
  Ok (Electrode ""%string (mean (map (fun x => edc (fst x)) els)) (mean (map (fun x => erf (fst x)) els))
        (EPolygon (concat (map snd els)) 0 50))).
Definition group (s : list electrode) (thresholds : list R) (voltages : option (list R)) : res (list electrode) :=
  let voltages := match voltages with Some v => v | None => map edc s end in
  collect (map (group_bin s voltages) (bins thresholds)).
