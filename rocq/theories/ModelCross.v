(** Model of vector_product of transformations.py, 1786-1804, for arrays: numpy.cross along
    an axis, with numpy's broadcasting.  Elements are real numbers. *)
From Verif Require Import Base ModelCExt ModelNorm ModelAngle.
Open Scope R_scope.
Notation length := List.length.

(** numpy.moveaxis(x, a, -1) *)
Definition axis_last (x : arr) (a : nat) : arr :=
  (drop a (fst x) ++ [nth a (fst x) 0%nat], fun i => snd x (insert a (last i 0%nat) (removelast i))).
(** numpy.moveaxis(x, -1, c) *)
Definition axis_from_last (x : arr) (c : nat) : arr :=
  (insert c (last (fst x) 0%nat) (removelast (fst x)), fun i => snd x (drop c i ++ [nth c i 0%nat])).
(** x[..., k] *)
Definition component (x : arr) (k : nat) : arr := (removelast (fst x), fun i => snd x (i ++ [k])).
(** the products and differences of numpy.cross for vectors of two or three components
    (la, lb); component k of the result; with two and two there is one component only *)
Definition cross_component (la lb : nat) (u v : nat -> R) (k : nat) : R :=
  match la, lb, k with
  | 2%nat, 2%nat, _ => u 0%nat * v 1%nat - u 1%nat * v 0%nat
  | 2%nat, _, 0%nat => u 1%nat * v 2%nat
  | 2%nat, _, 1%nat => - (u 0%nat * v 2%nat)
  | 2%nat, _, _ => u 0%nat * v 1%nat - u 1%nat * v 0%nat
  | _, 2%nat, 0%nat => - (u 2%nat * v 1%nat)
  | _, 2%nat, 1%nat => u 2%nat * v 0%nat
  | _, 2%nat, _ => u 0%nat * v 1%nat - u 1%nat * v 0%nat
  | _, _, 0%nat => u 1%nat * v 2%nat - u 2%nat * v 1%nat
  | _, _, 1%nat => u 2%nat * v 0%nat - u 0%nat * v 2%nat
  | _, _, _ => u 0%nat * v 1%nat - u 1%nat * v 0%nat
  end.
Definition two_or_three (n : nat) : bool := ((n =? 2) || (n =? 3))%nat%bool.
(** 1804: numpy.cross(v0, v1, axis=axis).  numpy's AxisError is a ValueError. *)
Definition vector_product (v0 v1 : arr) (axis : Z) : res arr :=
  match the_axis axis (length (fst v0)) with
  | None => Raise ValueError
  | Some a0 =>
  match the_axis axis (length (fst v1)) with
  | None => Raise ValueError
  | Some a1 =>
    let x := axis_last v0 a0 in
    let y := axis_last v1 a1 in
    let la := last (fst x) 0%nat in
    let lb := last (fst y) 0%nat in
    if (two_or_three la && two_or_three lb)%bool then
      match broadcast_shape (rev (fst (component x 0))) (rev (fst (component y 0))) with
      | None => Raise ValueError
      | Some r =>
        let s := rev r in
        let elements := fun i => cross_component la lb (fun k => broadcast (component x k) i) (fun k => broadcast (component y k) i) in
        if ((la =? 3) || (lb =? 3))%nat%bool then
          match the_axis axis (length (s ++ [3%nat])) with
          | None => Raise ValueError
          | Some c => Ok (axis_from_last (s ++ [3%nat], fun i => elements (removelast i) (last i 0%nat)) c)
          end
        else Ok (s, fun i => elements i 0%nat)
      end
    else Raise ValueError
  end end.
