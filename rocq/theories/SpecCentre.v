(** The point approximation of polygons: for C157. *)
From Verif Require Import Base ModelField SpecField SpecMax.
Open Scope R_scope.

(** all points inside the polygon are within delta of c *)
Definition inside_disc (path : list p2) (c : p2) (delta : R) : Prop :=
  forall p, interior path p -> (fst p - fst c) ^ 2 + (snd p - snd c) ^ 2 <= delta ^ 2.
(** all points of the plane within delta of c have at least the distance r from p *)
Definition disc_apart (c : p2) (delta : R) (p : p3) (r : R) : Prop :=
  forall u w, (u - fst c) ^ 2 + (w - snd c) ^ 2 <= delta ^ 2 -> r ^ 2 <= (u - px p) ^ 2 + (w - py p) ^ 2 + pz p ^ 2.
