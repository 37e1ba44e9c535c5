(** Mathieu's equation y'' + (a - 2 q cos 2t) y = 0 and its characteristic
    exponent, for C165-C167. *)
From Coquelicot Require Import Coquelicot.
From Verif Require Import Base SpecMathieu ModelFloquet.
Import ListNotations.
Open Scope R_scope.

(** [y] solves the equation, [dy] is its derivative *)
Definition solves (a q : R) (y dy : R -> R) : Prop :=
  forall t, is_derive y t (dy t) /\ is_derive dy t (- (a - 2 * q * cos (2 * t)) * y t).
(** the even solution: y(0) = 1, y'(0) = 0; the odd one: y(0) = 0, y'(0) = 1 *)
Definition even_solution (a q : R) (y dy : R -> R) : Prop := solves a q y dy /\ y 0 = 1 /\ dy 0 = 0.
Definition odd_solution (a q : R) (y dy : R -> R) : Prop := solves a q y dy /\ y 0 = 0 /\ dy 0 = 1.
(** after one period pi of the equation the complex function u + i v is
    multiplied by rho e^(i theta) *)
Definition multiplied (u v : R -> R) (rho theta : R) : Prop :=
  forall t, u (t + PI) = rho * (cos theta * u t - sin theta * v t)
         /\ v (t + PI) = rho * (sin theta * u t + cos theta * v t).
Definition bounded (f : R -> R) : Prop := exists B, forall t, Rabs (f t) <= B.
(** the solver integrates exactly: for whatever function that is the right-hand
    side of Mathieu's equation as a system for (y, y'), from time 0 and (1, 0), it
    returns the values of the solution [y], [dy] at the asked times if there are any,
    otherwise at times of its own of which the last is the end of the interval *)
Definition integrates (solve : solver) (a q : R) (y dy : R -> R) : Prop :=
  forall (f : R -> R * R -> R * R) (t1 : R), (forall t x v, f t (x, v) = (v, - (a - 2 * q * cos (2 * t)) * x)) -> 0 <= t1 ->
  (exists ts, solve f 0 t1 (1, 0) None = map (fun t => (y t, dy t)) (ts ++ [t1])) /\
  forall ts, (forall t, In t ts -> 0 <= t <= t1) -> solve f 0 t1 (1, 0) (Some ts) = map (fun t => (y t, dy t)) ts.
(** the bound on |a - 2 q cos 2t| and the rate at which errors may grow *)
Definition rate (a q : R) : R := (1 + (Rabs a + 2 * Rabs q)) / 2.
(** what the truncated series with the coefficients [c] leaves of the equation,
    at most, for all times: the orders 0, nc and nc+1 on both sides *)
Definition defect (a q nu : R) (nc : nat) (c : Z -> R) : R :=
  let N := Z.of_nat nc in sumR (map (fun n => Rabs (residue a q nu c n)) [- N - 1; - N; 0; N; N + 1]%Z).
(** the distance of two exponents in the complex plane is below tol; nan is
    near to nothing *)
Definition re_im (e : exponent) : R * R := match e with Real x => (x, 0) | Cplx x y => (x, y) | NaN => (0, 0) end.
Definition nearer (tol : R) (x y : exponent) : Prop :=
  x <> NaN /\ y <> NaN /\ sqrt ((fst (re_im x) - fst (re_im y)) ^ 2 + (snd (re_im x) - snd (re_im y)) ^ 2) < tol.
