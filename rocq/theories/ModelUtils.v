(** Model of electrode/utils.py lines 80-398: derivative names, reduced and
    expanded tensors, rotation of tensors. *)
From Coq Require Import Ascii.
From Verif Require Import Base.
Open Scope nat_scope.

(** ** Derivative names *)

(** utils.py 115-121: [_derivative_names]. *)
Definition derivative_names : list (list string) :=
  [ [""];
    ["x"; "y"; "z"];
    ["xx"; "xy"; "xz"; "yy"; "yz"];
    ["xxy"; "xxz"; "yyz"; "xyy"; "xzz"; "yzz"; "xyz"];
    ["xxxy"; "xxxz"; "xxyy"; "xxzz"; "xyyy"; "xzzz"; "yyyz"; "yyzz"; "yzzz"];
    ["xxxyy"; "xxxyz"; "xxxzz"; "xxyyy"; "xxyyz"; "xxyzz"; "xxzzz"; "xyyyz";
     "xyyzz"; "yyyzz"; "yyzzz"] ]%string.

(** python's [sorted] on small integers (insertion sort). *)
Fixpoint insert (a : nat) (l : list nat) : list nat :=
  match l with
  | [] => [a]
  | b :: r => if a <=? b then a :: l else b :: insert a r
  end.
Fixpoint sorted (l : list nat) : list nat :=
  match l with [] => [] | a :: r => insert a (sorted r) end.

(** ["xyz".index(n)], a ValueError if [n] is not one of the letters. *)
Definition axis_of (c : ascii) : res nat :=
  if Ascii.eqb c "x"%char then Ok 0
  else if Ascii.eqb c "y"%char then Ok 1
  else if Ascii.eqb c "z"%char then Ok 2
  else Raise ValueError.
(** ["xyz"[i]], an IndexError beyond 2 (negative indices are not modelled). *)
Definition letter_of (i : nat) : res ascii :=
  match i with
  | 0 => Ok "x"%char | 1 => Ok "y"%char | 2 => Ok "z"%char
  | _ => Raise IndexError
  end.

(** utils.py 132-149 *)
Fixpoint name_to_idx (name : string) : res (list nat) :=
  match name with
  | EmptyString => Ok []
  | String c r => bind (axis_of c) (fun a => bind (name_to_idx r) (fun l => Ok (a :: l)))
  end.

Fixpoint join_letters (l : list nat) : res string :=
  match l with
  | [] => Ok EmptyString
  | i :: r => bind (letter_of i) (fun c => bind (join_letters r) (fun s => Ok (String c s)))
  end.
(** utils.py 151-168 *)
Definition idx_to_name (idx : list nat) : res string := join_letters (sorted idx).

(** utils.py 170-185: [sum(j*3**(len(idx)-i-1) for i, j in enumerate(idx))]. *)
Definition idx_to_nidx (idx : list nat) : nat :=
  fold_left Nat.add
    (map (fun ij => snd ij * 3 ^ (length idx - fst ij - 1))
         (combine (seq 0 (length idx)) idx)) 0.

(** python's [list.remove]: drops the first occurrence. *)
Fixpoint remove1 (a : nat) (l : list nat) : list nat :=
  match l with
  | [] => []
  | b :: r => if b =? a then r else b :: remove1 a r
  end.
Fixpoint count (a : nat) (l : list nat) : nat :=
  match l with [] => 0 | b :: r => (if b =? a then 1 else 0) + count a r end.

(** utils.py 187-212.  The generator is the list of its values. *)
Definition find_laplace (c : list nat) : list (list nat * list nat) :=
  let name := sorted c in
  let letters := seq 0 3 in
  flat_map (fun i =>
    if 2 <=? count i name then
      let keep := remove1 i (remove1 i name) in
      match map (fun j => sorted (keep ++ [j; j])) (remove1 i letters) with
      | [a; b] => [(a, b)]
      | _ => []      (* [letters] has three entries: not reached *)
      end
    else []) letters.

(** [itertools.product(range(3), repeat=n)], last index fastest. *)
Fixpoint product3 (n : nat) : list (list nat) :=
  match n with
  | 0 => [[]]
  | S m => flat_map (fun a => map (cons a) (product3 m)) [0; 1; 2]
  end.

(** python's [list.index] / [in] on names. *)
Fixpoint index_of (n : string) (l : list string) : option nat :=
  match l with
  | [] => None
  | a :: r => if String.eqb a n then Some 0 else option_map S (index_of n r)
  end.

(** An entry of [_expand_map]: a reduced index, or a pair to be summed and
    negated. *)
Inductive ent := Sel (i : nat) | Lap (a b : nat).

(** utils.py 234-243: the entries appended for one index tuple. *)
Definition expand_entry (names : list string) (idx : list nat) : list ent :=
  match idx_to_name idx with
  | Raise _ => []
  | Ok name =>
    match index_of name names with
    | Some i => [Sel i]
    | None =>
        flat_map (fun ab =>
          match idx_to_name (fst ab), idx_to_name (snd ab) with
          | Ok na, Ok nb =>
              match index_of na names, index_of nb names with
              | Some ia, Some ib => [Lap ia ib]
              | _, _ => []
              end
          | _, _ => []
          end) (find_laplace idx)
    end
  end.

(** utils.py 125-126, 233-243: [_expand_map]. *)
Definition expand_map : list (list ent) :=
  map (fun dn => flat_map (expand_entry (snd dn)) (product3 (fst dn)))
      (combine (seq 0 6) derivative_names).

(** utils.py 127-128, 231-232: [_select_map]. *)
Definition select_map : list (list nat) :=
  map (map (fun n => match name_to_idx n with Ok l => idx_to_nidx l | Raise _ => 0 end))
      derivative_names.

(** utils.py 123, 217-220: [_derivatives_map] and [_name_map] as association
    lists in insertion order. *)
Definition derivatives_map : list (string * (nat * nat)) :=
  flat_map (fun dn => map (fun ni => (snd ni, (fst dn, fst ni)))
                          (combine (seq 0 (length (snd dn))) (snd dn)))
           (combine (seq 0 6) derivative_names).

(** utils.py 249-285.  A missing key is a KeyError. *)
Definition name_to_deriv (n : string) : res (nat * nat) :=
  match find (fun e => String.eqb (fst e) n) derivatives_map with
  | Some e => Ok (snd e)
  | None => Raise KeyError
  end.
Definition deriv_to_name (deriv idx : nat) : res string :=
  match find (fun e => (fst (snd e) =? deriv) && (snd (snd e) =? idx)) derivatives_map with
  | Some e => Ok (fst e)
  | None => Raise KeyError
  end.

(** utils.py 221-226: the candidates of [_derive_map] for one name: for each
    lower name (in order) the first axis that fits; a later lower name
    overwrites an earlier one. *)
Definition first_axis (name lower : string) : option nat :=
  find (fun j =>
    match name_to_idx lower with
    | Ok l => match idx_to_name (l ++ [j]) with
              | Ok s => String.eqb name s
              | Raise _ => false
              end
    | Raise _ => false
    end) (seq 0 3).
Definition derive_entry (name : string) (lower : list string)
  : option (nat * nat) :=
  fold_left (fun acc il =>
    match first_axis name (snd il) with
    | Some j => Some (fst il, j)
    | None => acc
    end) (combine (seq 0 (length lower)) lower) None.

(** utils.py 287-305 *)
Definition construct_derivative (deriv idx : nat) : res ((nat * nat) * nat) :=
  match deriv with
  | 0 => Raise KeyError
  | S d =>
      match nth_error derivative_names deriv, nth_error derivative_names d with
      | Some names, Some lower =>
          match nth_error names idx with
          | Some n => match derive_entry n lower with
                      | Some (i, j) => Ok ((d, i), j)
                      | None => Raise KeyError
                      end
          | None => Raise KeyError
          end
      | _, _ => Raise KeyError
      end
  end.

(** The assertions made while the module is imported (utils.py 218, 227,
    230, 244); line 230 is about pairs of names both being independent. *)
Definition import_asserts : bool :=
  forallb (fun dn =>
    let d := fst dn in let names := snd dn in
    forallb (fun ni =>
      let name := snd ni in
      (String.length name =? d) &&
      ((d =? 0) || match construct_derivative d (fst ni) with Ok _ => true | Raise _ => false end) &&
      match name_to_idx name with
      | Raise _ => false
      | Ok l =>
        forallb (fun ab =>
          match idx_to_name (fst ab), idx_to_name (snd ab) with
          | Ok a, Ok b =>
              match index_of a names, index_of b names with
              | Some _, Some _ => false
              | _, _ => true
              end
          | _, _ => false
          end) (find_laplace l)
      end) (combine (seq 0 (length names)) names)
    && (length (nth d expand_map []) =? 3 ^ d))
  (combine (seq 0 6) derivative_names).

(** utils.py 344-362 *)
Definition deriv_to_reduced_idx (d : string) : res ent :=
  bind (name_to_idx d) (fun idx =>
  match nth_error expand_map (String.length d) with
  | None => Raise IndexError
  | Some m => match nth_error m (idx_to_nidx idx) with
              | None => Raise IndexError
              | Some e => Ok e
              end
  end).

(** ** Reduced and expanded tensors *)
Open Scope R_scope.

(** utils.py 337-340: one entry of the expanded tensor of one point; an
    IndexError if the reduced tensor is too short. *)
Definition ent_value (c : list R) (e : ent) : res R :=
  match e with
  | Sel i => match nth_error c i with Some x => Ok x | None => Raise IndexError end
  | Lap a b =>
      match nth_error c a, nth_error c b with
      | Some x, Some y => Ok (- x - y)
      | _, _ => Raise IndexError
      end
  end.
Fixpoint collect {A} (l : list (res A)) : res (list A) :=
  match l with
  | [] => Ok []
  | x :: r => bind x (fun a => bind (collect r) (fun s => Ok (a :: s)))
  end.

(** utils.py 308-341, for one point (the leading axes of the array are
    independent).  The result is the row-major flattening of the (3,...,3)
    array; for order 0 the single value. An empty reduced tensor makes
    numpy fail on the shape [3**-1]. *)
Definition expand_tensor (c : list R) : res (list R) :=
  match length c with
  | O => Raise TypeError
  | S m =>
      let order := (m / 2)%nat in
      match order with
      | O => match c with x :: _ => Ok [x] | [] => Raise IndexError end
      | 1%nat => Ok c
      | _ => match nth_error expand_map order with
             | None => Raise IndexError
             | Some em => collect (map (ent_value c) em)
             end
      end
  end.

(** utils.py 365-398, for one point; [t] is the flattened (3,...,3) array. *)
Definition select_tensor (order : nat) (t : list R) : res (list R) :=
  if (order <? 2)%nat then Ok t
  else match nth_error select_map order with
       | None => Raise IndexError
       | Some sm => collect (map (fun j => match nth_error t j with
                                           | Some x => Ok x
                                           | None => Raise IndexError end) sm)
       end.

(** ** Rotation, utils.py 80-112.  A tensor of one point is a function of
    its index list; [order] is the number of tensor axes (the default,
    [c.ndim - 1]). *)
Definition tensor := list nat -> R.
Definition mat := nat -> nat -> R.

Fixpoint set_nth {A} (k : nat) (v : A) (l : list A) : list A :=
  match l, k with
  | [], _ => []
  | _ :: r, O => v :: r
  | a :: r, S k' => a :: set_nth k' v r
  end.
Definition sum3 (f : nat -> R) : R := f 0%nat + f 1%nat + f 2%nat.

(** [c.swapaxes(a, b)] *)
Definition swapaxes (a b : nat) (c : tensor) : tensor :=
  fun idx => c (set_nth a (nth b idx 0%nat) (set_nth b (nth a idx 0%nat) idx)).
(** [np.dot(c, r)]: contracts the last axis of [c] (axis [m]) with the
    first of [r]. *)
Definition dot_last (m : nat) (c : tensor) (r : mat) : tensor :=
  fun idx => sum3 (fun b => c (set_nth m b idx) * r b (nth m idx 0%nat)).
(** the loop of lines 107-112 on a tensor with [order] axes, axis [n-i]
    being axis [order-1-i] of the tensor *)
Definition rotate_tensor (order : nat) (c : tensor) (r : mat) : tensor :=
  fold_left (fun t i =>
    swapaxes (order - 1 - i) (order - 1)
      (dot_last (order - 1) (swapaxes (order - 1 - i) (order - 1) t) r))
    (seq 0 order) c.
