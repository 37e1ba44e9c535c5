(** Spherical coordinates and spherical harmonics. *)
From Verif Require Import Base ModelTrans ModelHarm.
From Coquelicot Require Import Coquelicot.
Open Scope R_scope.
Notation length := List.length.

(** ** C71, documented position of the coefficient (n, m), class docstring 63-71 *)
Definition slot (N n m : Z) : Z * Z := if (0 <=? m)%Z then (m, n) else (N + m, N - 1 - n)%Z.
Definition valid_index (N n m : Z) : Prop := (0 <= n < N /\ - n <= m <= n)%Z.

(** ** C73 *)
(** x, y or z *)
Definition coord (k : nat) (p : R * R * R) : R := match k with 0%nat => fst (fst p) | 1%nat => snd (fst p) | _ => snd p end.

(** ** C74 *)
(** the quadrature integrates products of associated Legendre functions of
    the same m exactly *)
Definition exact_quadrature (N : nat) (xs ws : list R) (lpmn : R -> nat -> nat -> R) : Prop :=
  length xs = N /\ length ws = N /\
  forall m n n', (m <= n < N)%nat -> (m <= n' < N)%nat ->
  sumR (map (fun i => nth i ws 0 * lpmn (nth i xs 0) m n * lpmn (nth i xs 0) m n') (seq 0 N)) =
  if Nat.eqb n n' then 2 / (2 * INR n + 1) * (INR (fact (n + m)) / INR (fact (n - m))) else 0.
(** the spherical harmonic of degree n and order m at the point with
    cos theta = x and azimuth phi, in terms of the associated Legendre
    functions (with Condon-Shortley phase) *)
Definition Ynm (lpmn : R -> nat -> nat -> R) (n : nat) (m : Z) (x phi : R) : C :=
  Cmult (RtoC (sqrt ((2 * INR n + 1) / (4 * PI) * INR (fact (n - Z.abs_nat m)) / INR (fact (n + Z.abs_nat m)))
    * (if (m <? 0)%Z then (-1) ^ Z.abs_nat m else 1) * lpmn x (Z.abs_nat m) n)) (cis (IZR m * phi)).
(** all (n, m) with |m| <= n < N *)
Definition all_nm (N : nat) : list (nat * Z) :=
  flat_map (fun n => map (fun m => (n, m)) (zrange (- Z.of_nat n) (Z.of_nat n + 1))) (seq 0 N).
(** the coefficient (n, m) of an array *)
Definition coefficient (N : nat) (a : list (list C)) (n : nat) (m : Z) : C :=
  at2 a (Z.to_nat (fst (slot (Z.of_nat N) (Z.of_nat n) m))) (Z.to_nat (snd (slot (Z.of_nat N) (Z.of_nat n) m))).
(** an array of r rows of length c *)
Definition shape2 {A} (a : list (list A)) (r c : nat) : Prop := length a = r /\ List.Forall (fun x => length x = c) a.
(** (-1) ** e *)
Definition signs (ipow : Z -> res R) : Prop := forall e, (e <= 0)%Z -> ipow e = Ok ((-1) ^ Z.abs_nat e).
(** numpy from version 1.12 on *)
Definition signs_modern (ipow : Z -> res R) : Prop := forall e, ipow e = if (e <? 0)%Z then Raise ValueError else Ok ((-1) ^ Z.to_nat e).
(** the weighted sum over the grid of conj(u) v, the inner product on the sphere
    as the class samples it: nodes xs with weights ws in cos theta, 2 N equal
    steps in phi *)
Definition inner (N : nat) (xs ws : list R) (u v : nat -> nat -> C) : C :=
  csum (seq 0 N) (fun i => csum (seq 0 (2 * N)) (fun j => Cmult (RtoC (nth i ws 0 * (PI / INR N))) (Cmult (Cconj (u i j)) (v i j)))).
(** the harmonic (n, m) on the grid *)
Definition sampled (N : nat) (xs : list R) (lpmn : R -> nat -> nat -> R) (n : nat) (m : Z) (i j : nat) : C :=
  Ynm lpmn n m (nth i xs 0) (PI * INR j / INR N).
