(** Points of the electrode plane relative to a closed path. *)
From Coquelicot Require Import Coquelicot.
From Verif Require Import Base ModelField SpecField.
Open Scope R_scope.

(** q is on the closed segment from a to b *)
Definition on_segment (q a b : p2) : Prop :=
  exists t, 0 <= t <= 1 /\ fst q = fst a + t * (fst b - fst a) /\ snd q = snd a + t * (snd b - snd a).
(** q is on no edge of the path *)
Definition off_path (q : p2) (path : list p2) : Prop :=
  forall e, In e (edges_of path) -> ~ on_segment q (fst e) (snd e).
Definition dist2 (q a : p2) : R := sqrt ((fst a - fst q) ^ 2 + (snd a - snd q) ^ 2).
(** seen from q the direction turns by the angle [al], between minus and plus
    half a turn, on the way from a to b (counter-clockwise positive) *)
Definition turns (q a b : p2) (al : R) : Prop :=
  - PI < al < PI /\
  dist2 q a * dist2 q b * cos al = (fst a - fst q) * (fst b - fst q) + (snd a - snd q) * (snd b - snd q) /\
  dist2 q a * dist2 q b * sin al = (fst a - fst q) * (snd b - snd q) - (snd a - snd q) * (fst b - fst q).
(** the closed path goes k times around q: the angles add up to k turns *)
Definition winds (q : p2) (path : list p2) (k : Z) : Prop :=
  exists als, List.Forall2 (fun e al => turns q (fst e) (snd e) al) (edges_of path) als /\
    sumR als = IZR k * (2 * PI).

(** q is a mean of the three corners with positive (non-negative) weights *)
Definition inside3 (a b c q : p2) : Prop :=
  exists u v w, 0 < u /\ 0 < v /\ 0 < w /\ u + v + w = 1 /\
    fst q = u * fst a + v * fst b + w * fst c /\ snd q = u * snd a + v * snd b + w * snd c.
Definition in_closed3 (a b c q : p2) : Prop :=
  exists u v w, 0 <= u /\ 0 <= v /\ 0 <= w /\ u + v + w = 1 /\
    fst q = u * fst a + v * fst b + w * fst c /\ snd q = u * snd a + v * snd b + w * snd c.
(** the limit of f(z) as z decreases to 0 *)
Definition limit_from_above (f : R -> R) (l : R) : Prop := filterlim f (at_right 0) (locally l).
Definition limit_from_below (f : R -> R) (l : R) : Prop := filterlim f (at_left 0) (locally l).
