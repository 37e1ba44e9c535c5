(** What the plots show. *)
From Verif Require Import Base ModelField SpecField ModelGrid ModelPlot.
Open Scope R_scope.
Notation length := List.length.

(** ** Colours *)
(** [m] is the largest absolute value of the list *)
Definition peak (u : list R) (m : R) : Prop := (exists x, In x u /\ m = Rabs x) /\ forall x, In x u -> Rabs x <= m.

(** the voltages plotted: the argument, or those of the electrodes *)
Definition default_u (dcs : list R) (u : option (list R)) : list R := match u with Some u => u | None => dcs end.
(** the position on the colour map of a voltage v among voltages u: the middle
    for 0, growing linearly, the ends for the largest magnitude *)
Definition shade (u : list R) (v h : R) : Prop :=
  exists m, peak u m /\ (m = 0 -> h = 1 / 2) /\ (m <> 0 -> h = 1 / 2 + v / m / 2).

(** ** Contours *)
(** the point of the slice [slc = at] with the coordinates [a] and [b] along
    the two remaining axes, in alphabetical order *)
Inductive slice_point : string -> R -> R -> R -> p3 -> Prop :=
| slice_x v a b : slice_point "x" v a b (P3 v a b)
| slice_y v a b : slice_point "y" v a b (P3 a v b)
| slice_z v a b : slice_point "z" v a b (P3 a b v).
(** the two remaining axes and their names *)
Inductive slice_axes (gx gy gz : axis) : string -> axis -> axis -> string -> string -> Prop :=
| axes_x : slice_axes gx gy gz "x" gy gz "y/l" "z/l"
| axes_y : slice_axes gx gy gz "y" gx gz "x/l" "z/l"
| axes_z : slice_axes gx gy gz "z" gx gy "x/l" "y/l".
(** rows for the second axis, columns for the first *)
Definition entry (t : list (list R)) (j i : nat) : R := nth i (nth j t []) 0.
Definition table (t : list (list R)) (rows cols : nat) : Prop := length t = rows /\ List.Forall (fun r => length r = cols) t.
(** the potential of the type at a point: total, dc or pseudo *)
Definition shown (c : R) (s : list electrode) (typ : string) (p : p3) (v : R) : Prop :=
  (typ = "dc"%string /\ v = tensor_entry s TDc 0 [] p) \/
  (typ = "rf"%string /\ v = pseudo_entry c s 0 [] p) \/
  (typ = "tot"%string /\ v = tensor_entry s TDc 0 [] p + pseudo_entry c s 0 [] p).
Definition strictly_increasing (l : list R) : Prop := forall i, (S i < length l)%nat -> nth i l 0 < nth (S i) l 0.
