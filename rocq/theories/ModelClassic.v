(** Model of the classes of electrode/constraints.py other than
    VoltageConstraint (which is in ModelCons): Constraint 36-58,
    SingleIndexConstraint 61-76, SymmetryConstraint 142-151,
    PotentialConstraint 154-172, ForceConstraint 175-195, CurvatureConstraint
    198-222 and OffsetPotentialConstraint 225-252. *)
From Verif Require Import Base ModelUtils ModelField ModelCons.
Open Scope R_scope.
Notation length := List.length.

(** A candidate for the optimisation variables: one vector of voltages for each
    position. *)
Definition cand := list (list R).
(** A cvxopt function of the variables is its value at each candidate, and is
    affine or only convex; python numbers stay numbers. *)
Record fn := Fn { fval : cand -> list R; affine : bool }.
Inductive value := VFn (f : fn) | VNum (x : R).
(** What a [<=] or [>=] leaves in the list of constraints: a cvxopt constraint,
    or the python truth value when two numbers are compared. *)
Inductive item := Cmp (c : ctr cand) | PyBool (b : bool).

(** The arguments of [pots] at one position, 161-164: potential, force and
    curvature of the fixed electrodes and the contributions of the [m]
    variable electrodes.  The arrays are numpy arrays that the constraints may
    write to ([p0] is taken to be a 0-dimensional array, as the [float()] in
    167 expects). *)
Record pots := Pots { p0 : R; f0 : nat -> R; c0 : nat -> nat -> R;
                      pv : list R; fv : nat -> list R; cv : nat -> nat -> list R }.

(** ** Constraint.constraints, 46-53.  cvxopt refuses [v >= 0] for a function
    that is not affine (not concave) with a TypeError. *)
Definition le0 (v : value) : item :=
  match v with
  | VFn f => Cmp (Ctr (fval f) CLe 0)
  | VNum x => PyBool (if Rle_dec x 0 then true else false)
  end.
Definition ge0 (v : value) : res item :=
  match v with
  | VFn f => if affine f then Ok (Cmp (Ctr (fval f) CGe 0)) else Raise TypeError
  | VNum x => Ok (PyBool (if Rle_dec 0 x then true else false))
  end.
Fixpoint yields (equal : bool) (vs : list value) : res (list item) :=
  match vs with
  | [] => Ok []
  | v :: r =>
      bind (if equal then bind (ge0 v) (fun g => Ok [le0 v; g]) else Ok [le0 v]) (fun a =>
      bind (yields equal r) (fun b => Ok (a ++ b)))
  end.
(** [values] reads and writes the arrays [pots] of all positions *)
Definition gen (A : Type) := (list pots -> list pots * res (list A))%type.
Definition constraints (weight : R) (equal : bool) (values : gen value) : gen item := fun st =>
  if Req_EM_T weight 0 then
    let '(st, vs) := values st in (st, bind vs (yields equal))
  else (st, Ok []).
(** ** Constraint.objective, 55-58; [cvxopt.modeling.sum] of a python number
    raises. *)
Definition fsum (weight : R) (v : value) : res (cand -> R) :=
  match v with VFn f => Ok (fun V => weight * sumR (fval f V)) | VNum _ => Raise TypeError end.
Definition objective (weight : R) (values : gen value) : gen (cand -> R) := fun st =>
  if Rlt_dec 0 weight then
    let '(st, vs) := values st in (st, bind vs (fun vs => collect (map (fsum weight) vs)))
  else (st, Ok []).

(** ** SingleIndexConstraint.values, 64-72; there are as many positions as
    entries of [pots].  [single k p] is [single_value] at position [k]. *)
Fixpoint over (single : nat -> pots -> pots * res (list value)) (idx : list Z) : gen value := fun st =>
  match idx with
  | [] => (st, Ok [])
  | i :: r =>
      match py_index (seq 0 (length st)) i with
      | Raise e => (st, Raise e)
      | Ok k =>
          let '(p, vs) := single k (nth k st (Pots 0 (fun _ => 0) (fun _ _ => 0) [] (fun _ => []) (fun _ _ => []))) in
          let st := set_nth k p st in
          match vs with
          | Raise e => (st, Raise e)
          | Ok vs => let '(st, ws) := over single r st in (st, bind ws (fun ws => Ok (vs ++ ws)))
          end
      end
  end.
Definition single_index (index : option (list Z)) (single : nat -> pots -> pots * res (list value)) : gen value := fun st =>
  over single (match index with Some idx => idx | None => map Z.of_nat (seq 0 (length st)) end) st.

(** ** SymmetryConstraint.single_value, 147-151; [m] is the size of the
    variable. *)
Definition sym_side (m k : nat) (a : Z) : res value :=
  if (0 <=? a)%Z then
    bind (py_index (seq 0 m) a) (fun j => Ok (VFn (Fn (fun V => [nth j (nth k V []) 0]) true)))
  else Ok (VNum 0).
Definition val (v : value) (V : cand) : list R := match v with VFn f => fval f V | VNum x => [x] end.
Definition vminus (a b : value) : value :=
  match a, b with
  | VNum x, VNum y => VNum (x - y)
  | _, _ => VFn (Fn (fun V => map2 Rminus (val a V) (val b V)) true)
  end.
Definition symmetry_single (m : nat) (symmetry : list (Z * Z)) (k : nat) (p : pots) : pots * res (list value) :=
  (p, collect (map (fun ab => bind (sym_side m k (fst ab)) (fun va =>
                              bind (sym_side m k (snd ab)) (fun vb => Ok (vminus va vb)))) symmetry)).

(** ** PotentialConstraint.single_value, 160-172 *)
Definition opt_list {A B} (o : option A) (f : A -> B) : list B := match o with Some a => [f a] | None => [] end.
Definition potential_single (m : nat) (only_variable : bool) (pmin pmax : option R) (k : nat) (p : pots)
    : pots * res (list value) :=
  if (length (pv p) =? m)%nat then
    let p := if only_variable then Pots (p0 p * 0) (f0 p) (c0 p) (pv p) (fv p) (cv p) else p in
    let v := fun V : cand => p0 p + dot (pv p) (nth k V []) in
    (p, Ok (opt_list pmax (fun b => VFn (Fn (fun V => [v V - b]) true))
         ++ opt_list pmin (fun b => VFn (Fn (fun V => [b - v V]) true))))
  else (p, Raise AssertionError).

(** ** [rotate_tensor] (utils.py 80-112) of the array of shape (3, m) with
    order 1 and of shape (3, 3, m) with the default order 2.  The last axes are
    rotated, here the electrode axis: [np.dot] needs [m = 3] there. *)
Definition sum3 (g : nat -> R) : R := g 0%nat + g 1%nat + g 2%nat.
Definition rotate_fv (m : nat) (f : nat -> list R) (r : mat) : res (nat -> list R) :=
  if (m =? 3)%nat then Ok (fun a => map (fun e => sum3 (fun j => nth j (f a) 0 * r j e)) (seq 0 3))
  else Raise ValueError.
Definition rotate_cv (m : nat) (c : nat -> nat -> list R) (r : mat) : res (nat -> nat -> list R) :=
  if (m =? 3)%nat then
    Ok (fun a b => map (fun e => sum3 (fun i => sum3 (fun j => nth j (c a i) 0 * r j e) * r i b)) (seq 0 3))
  else Raise ValueError.
(** of the arrays of shape (3,) and (3, 3), all axes are rotated *)
Definition rotate_f0 (f : nat -> R) (r : mat) : nat -> R := fun b => sum3 (fun a => f a * r a b).
Definition rotate_c0 (c : nat -> nat -> R) (r : mat) : nat -> nat -> R :=
  fun a b => sum3 (fun i => sum3 (fun j => c i j * r j b) * r i a).

(** ** ForceConstraint.single_value, 181-195 *)
Definition force_single (m : nat) (only_variable : bool) (fmax : option (nat -> R)) (coord : option mat) (k : nat) (p : pots)
    : pots * res (list value) :=
  if forallb (fun a => (length (fv p a) =? m)%nat) (seq 0 3) then
    let p := if only_variable then Pots (p0 p) (fun a => f0 p a * 0) (c0 p) (pv p) (fv p) (cv p) else p in
    (p, bind (match coord with
              | None => Ok (f0 p, fv p)
              | Some r => bind (rotate_fv m (fv p) r) (fun f => Ok (rotate_f0 (f0 p) r, f))
              end) (fun ff =>
        let v := fun V : cand => map (fun a => fst ff a + dot (snd ff a) (nth k V [])) (seq 0 3) in
        Ok [match fmax with
            | Some b => VFn (Fn (fun V => map2 (fun x y => Rabs x - y) (v V) (map b (seq 0 3))) false)
            | None => VFn (Fn v true)
            end]))
  else (p, Raise AssertionError).

(** ** CurvatureConstraint.single_value, 205-222; [np.triu_indices(3)] *)
Definition triu3 : list (nat * nat) := [(0, 0); (0, 1); (0, 2); (1, 1); (1, 2); (2, 2)]%nat.
Definition curvature_single (m : nat) (only_variable : bool) (cmin cmax : option (list R)) (coord : option mat)
    (k : nat) (p : pots) : pots * res (list value) :=
  if forallb (fun ab => (length (cv p (fst ab) (snd ab)) =? m)%nat) (list_prod (seq 0 3) (seq 0 3)) then
    let p := if only_variable then Pots (p0 p) (f0 p) (fun a b => c0 p a b * 0) (pv p) (fv p) (cv p) else p in
    (p, bind (match coord with
              | None => Ok (c0 p, cv p)
              | Some r => bind (rotate_cv m (cv p) r) (fun c => Ok (rotate_c0 (c0 p) r, c))
              end) (fun cc =>
        let lhs := fun V : cand => map (fun ab => fst cc (fst ab) (snd ab) + dot (snd cc (fst ab) (snd ab)) (nth k V [])) triu3 in
        Ok (opt_list cmin (fun b => VFn (Fn (fun V => map2 Rminus b (lhs V)) true))
         ++ opt_list cmax (fun b => VFn (Fn (fun V => map2 Rminus (lhs V) b) true)))))
  else (p, Raise AssertionError).

(** ** OffsetPotentialConstraint.single_value, 232-252.  The numeric attributes
    of an Electrode are [dc] and [rf] (electrode.py 57).  [pref0] stands for
    [system.potential(self.reference)[0]] and [el_pot el] for
    [el.electrical_potential(self.reference)[0]]. *)
Definition num_attr (el : electrode) (name : string) : res R :=
  if String.eqb name "dc" then Ok (edc el) else if String.eqb name "rf" then Ok (erf el) else Raise AttributeError.
Definition offset_single (m : nat) (only_variable : bool) (pmin pmax : option R) (pref0 : res R) (electrodes : list electrode)
    (el_pot : electrode -> res R) (k : nat) (p : pots) : pots * res (list value) :=
  if (length (pv p) =? m)%nat then
    (p, bind pref0 (fun pref0 =>
        bind (collect (map (fun el => bind (num_attr el "voltage_dc") (fun _ => el_pot el)) electrodes)) (fun pref =>
        let base := if only_variable then 0 else pref0 - p0 p in
        let v := fun V : cand => base + dot (map2 Rminus pref (pv p)) (nth k V []) in
        Ok (opt_list pmin (fun b => VFn (Fn (fun V => [b - v V]) true))
         ++ opt_list pmax (fun b => VFn (Fn (fun V => [v V - b]) true))))))
  else (p, Raise AssertionError).
