(** Model of sum_c of the class Mathieu, electrode/mathieu.py 230-247. *)
From Verif Require Import Base ModelMathieu.
Open Scope R_scope.
Notation length := List.length.

Record totals := Totals { totn : R; totnu : R; totg : R; totgn : R; tots : R; totsnu : R }.
(** 238-244; [Ccn[n+nc]] with 0 <= n + nc <= 2 nc *)
Definition add_term (a q nu : R) (nc : nat) (Ccn Csn : list R) (t : totals) (n : Z) : res totals :=
  let C := nth (Z.to_nat (n + Z.of_nat nc)) Ccn 0 in
  let S := nth (Z.to_nat (n + Z.of_nat nc)) Csn 0 in
  bind (gn n a q nu) (fun g => Ok (Totals
    (totn t + IZR n * C)
    (totnu t + (nu + 2 * IZR n) * C)
    (totg t + g * C)
    (totgn t + g * IZR n * C)
    (tots t + S)
    (totsnu t + (nu + 2 * IZR n) * S))).
(** the two numbers printed, 245-246, and the six returned.  The division is numpy's: by 0
    it is inf or nan there and any number here. *)
Definition sum_c (a q nu : R) (nc ng : nat) : res ((R * R) * totals) :=
  bind (coeff_Cn a q nu nc ng) (fun r =>
  let '(Ccn, Csn, _) := r in
  bind (loop (add_term a q nu nc Ccn Csn) (zrange (- Z.of_nat nc) (Z.of_nat nc + 1)) (Totals 0 0 0 0 0 0)) (fun t =>
  Ok ((totgn t - 2 * totn t, (totsnu t * nth nc Ccn 0 / nth nc Csn 0 - nu) / 2 - totn t), t))).
