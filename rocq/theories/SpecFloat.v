(** What C162-C164 say about floating point, without the program. *)
From Verif Require Import Base ModelField ModelFloat ModelFloatField.
Open Scope R_scope.

(** every voltage of a system multiplied by [c] *)
Definition scaled_by (c : R) (s : list electrode) : list electrode :=
  map (fun e => Electrode (ename e) (c * edc e) (c * erf e) (egeom e)) s.
(** every number of a result multiplied by [c]; errors are kept *)
Definition times (c : R) (r : res (list row)) : res (list row) :=
  match r with Ok out => Ok (map (map (Rmult c)) out) | Raise e => Raise e end.

(** half a unit in the last place of 1: the relative error of one rounding *)
Definition u64 : R := / 2 ^ 53.
(** the relative error [n] roundings can add up to *)
Definition gam (n : nat) : R := (1 + u64) ^ n - 1.

(** The numbers an electrode of unit voltage adds to the cell [i] of point
    [j], in the arithmetic [A]. *)
Definition unit_adds (A : arith) (xs : list p3) (d j i : nat) (g : geom) : list R :=
  match stmts g xs d with
  | Ok l => map (fun s => feval A 1 (se s))
              (filter (fun s => (sj s =? j)%nat && (si s =? i)%nat) l)
  | Raise _ => []
  end.
Definition total (l : list R) : R := fold_right Rplus 0 l.
Definition volts (t : vtyp) (e : electrode) : R :=
  match volt t e with Some v => v | None => 0 end.
(** the sum of the voltages times those numbers, the sum of the absolute
    values of its terms, and their number *)
Definition superposed (A : arith) (xs : list p3) (d j i : nat) (t : vtyp)
    (s : list electrode) : R :=
  total (map (fun e => volts t e * total (unit_adds A xs d j i (egeom e))) s).
Definition superposed_abs (A : arith) (xs : list p3) (d j i : nat) (t : vtyp)
    (s : list electrode) : R :=
  total (map (fun e => Rabs (volts t e) *
                       total (map Rabs (unit_adds A xs d j i (egeom e)))) s).
Definition additions (A : arith) (xs : list p3) (d j i : nat)
    (s : list electrode) : nat :=
  list_sum (map (fun e => length (unit_adds A xs d j i (egeom e))) s).

Definition cell (out : list row) (j i : nat) : R := nth i (nth j out []) 0.

(** [s] has the electrodes of [s1] and of [s2], with the sums of their
    voltages *)
Definition adds_up (t : vtyp) (s1 s2 s : list electrode) : Prop :=
  map egeom s1 = map egeom s /\ map egeom s2 = map egeom s /\
  map (volts t) s = map2 Rplus (map (volts t) s1) (map (volts t) s2).

(** ** Point pixels without cover images *)
(** the C function [pow] is accurate to three quarters of a unit in the last
    place, and [M_PI] is the double nearest to pi *)
Definition good_pow (pw : R -> nat -> R) : Prop :=
  forall x n, Rabs (pw x n - x ^ n) <= 3 / 2 * u64 * Rabs (x ^ n).
Definition good_pi (p : R) : Prop := Rabs (p - PI) <= / 2 * u64 * PI.
Definition pixels_only (s : list electrode) : Prop :=
  Forall (fun e => exists pixels h, egeom e = EPoint pixels 0 h) s.
Definition dist (x : p3) (p : p2) : R :=
  sqrt ((px x - fst p) ^ 2 + (py x - snd p) ^ 2 + pz x ^ 2).
(** [f voltage pixel area] added up over the pixels of a system, and their
    number *)
Definition pixel_total (f : R -> p2 -> R -> R) (t : vtyp) (s : list electrode) : R :=
  total (map (fun e => match egeom e with
                       | EPoint pixels _ _ =>
                           total (map (fun pa => f (volts t e) (fst pa) (snd pa)) pixels)
                       | _ => 0
                       end) s).
Definition pixel_count (s : list electrode) : nat :=
  list_sum (map (fun e => match egeom e with EPoint pixels _ _ => length pixels | _ => 0%nat end) s).
(** how much larger than [|V| a / (2 pi r^(d+2))] the terms of a derivative
    of order [d] are at most *)
Definition amp (d : nat) : R :=
  match d with 0%nat => 1 | 1%nat => 4 | 2%nat => 18 | 3%nat => 150 | 4%nat => 1620 | _ => 17100 end.
