(** Model of System.ions, electrode/system.py 1058-1127: equilibrium of
    several ions.  [pot d p] is the tensor potential(p, d) of one point.
    Positions are lists of points instead of flat arrays.
    [np.ma.array(r2)**e] in a denominator masks the entries with r2 = 0;
    masked entries do not take part in sums; the data below the mask are the
    numerators (0 in g and h).  numpy's powers 1/2, 3/2, 5/2 of r2 are
    written with sqrt. *)
From Verif Require Import Base ModelUtils ModelField.
Open Scope R_scope.
Notation length := List.length.

Definition coord_of (p : p3) (a : nat) : R := match a with 0%nat => px p | 1%nat => py p | _ => pz p end.
Definition ion (xs : list p3) (i : nat) : p3 := nth i xs (P3 0 0 0).
(** 1086, 1094, 1102: x[i, j] = x0[j] - x0[i] *)
Definition sep (xs : list p3) (i j a : nat) : R := coord_of (ion xs j) a - coord_of (ion xs i) a.
Definition sep2 (xs : list p3) (i j : nat) : R := sep xs i j 0 ^ 2 + sep xs i j 1 ^ 2 + sep xs i j 2 ^ 2.
(** 1081 *)
Definition qs (q : list R) (i j : nat) : R := nth i q 0 * nth j q 0.
(** numerator / masked denominator; masked entries count 0 in the sums *)
Definition masked (xs : list p3) (i j : nat) (v : R) : R := if Req_EM_T (sep2 xs i j) 0 then 0 else v.
Definition over {A} (l : list A) (f : A -> R) : R := sumR (map f l).

(** f, 1083-1089 *)
Definition ions_f (pot : nat -> p3 -> tensor) (q : list R) (xs : list p3) : R :=
  let n := length xs in
  over (seq 0 n) (fun i => pot 0%nat (ion xs i) [] +
    over (seq 0 n) (fun j => masked xs i j (1 / 2 * qs q i j / sqrt (sep2 xs i j)))).
(** g, 1091-1097: entry 3 i + a of the flat array *)
Definition ions_g (pot : nat -> p3 -> tensor) (q : list R) (xs : list p3) : list R :=
  let n := length xs in
  flat_map (fun i => map (fun a => pot 1%nat (ion xs i) [a] +
    over (seq 0 n) (fun j => masked xs i j (qs q i j * sep xs i j a / sqrt (sep2 xs i j) ^ 3))) (seq 0 3)) (seq 0 n).
(** h, 1099-1111.  1103-1106: the reduced second derivatives of each pair,
    transposed and expanded: the array of shape (n, n, 3, 3) has at [j, i]
    the tensor of the pair (i, j). *)
Definition pair_tensor (q : list R) (xs : list p3) (i j : nat) : res (list R) :=
  let x := sep xs i j 0 in let y := sep xs i j 1 in let z := sep xs i j 2 in
  expand_tensor (map (fun v => masked xs i j (- qs q i j * v / sqrt (sep2 xs i j) ^ 5))
    [2 * x ^ 2 - y ^ 2 - z ^ 2; 3 * x * y; 3 * x * z; 2 * y ^ 2 - x ^ 2 - z ^ 2; 3 * y * z]).
(** 1107: transpose(2, 0, 3, 1) gives shape (3, n, 3, n) with the tensor
    component first: p[a, j, b, i].  1108-1110: the loop runs over
    zip(p0 of the n ions, the 3 rows of p.sum(2)); [p[i, :, i, :]] has shape
    (n, n), p0i has shape (3, 3): the addition broadcasts only for n = 3.
    1111: reshape to (3 n, 3 n).  No ions at all (n = 0) are not modelled. *)
Definition ions_h (pot : nat -> p3 -> tensor) (q : list R) (xs : list p3) : res (nat -> nat -> R) :=
  let n := length xs in
  bind (collect (flat_map (fun j => map (fun i => pair_tensor q xs i j) (seq 0 n)) (seq 0 n))) (fun all =>
  let p a j b i := nth (3 * a + b) (nth (n * j + i) all []) 0 in
  if (n =? 3)%nat then
    let p' a j b i :=
      if (a =? b)%nat then p a j b i + (pot 2%nat (ion xs a) [i; j] - (p a j 0%nat i + p a j 1%nat i + p a j 2%nat i))
      else p a j b i in
    Ok (fun r c => p' (r / n)%nat (r mod n)%nat (c / n)%nat (c mod n)%nat)
  else Raise ValueError).
(** ions, 1113-1127.  [ncg] is scipy's fmin_ncg on the three functions,
    [eigh] stands for lines 1124-1126. *)
Definition ions {A} (pot : nat -> p3 -> tensor)
    (ncg : (list p3 -> R) -> (list p3 -> list R) -> (list p3 -> res (nat -> nat -> R)) -> list p3 -> res (list p3))
    (eigh : (nat -> nat -> R) -> A) (x0 : list p3) (q : list R) : res (list p3 * A) :=
  bind (ncg (ions_f pot q) (ions_g pot q) (ions_h pot q) x0) (fun x =>
  bind (ions_h pot q x) (fun c => Ok (x, eigh c))).
