(** Arrays of vectors, for C141. *)
From Verif Require Import Base SpecTrans ModelNorm SpecNorm ModelAngle.
Open Scope R_scope.
Notation length := List.length.

(** dimensions that go together: equal, or one of them is 1 and is repeated *)
Definition go_together (s t : list nat) : Prop := Forall2 (fun d e => d = e \/ d = 1%nat \/ e = 1%nat) s t.
(** the common shape *)
Definition common (s t : list nat) : list nat := map (fun p => if (fst p =? 1)%nat then snd p else fst p) (combine s t).
(** the index at which an array of shape s is read for an index of the common shape *)
Definition at_index (s idx : list nat) : list nat := map (fun p => if (fst p =? 1)%nat then 0%nat else snd p) (combine s idx).
(** the vector along axis a at an index of the other axes of the common shape *)
Definition vector_at (m : memory) (v : view) (a : nat) (idx : list nat) (k : nat) : R :=
  let i := at_index (drop a (shape v)) idx in get m v (firstn a i ++ k :: skipn a i).
(** o is the angle between two vectors of n components, nan (None) if one is 0; undirected:
    between the lines along them *)
Definition is_angle (n : nat) (v w : nat -> R) (directed : bool) (o : option R) : Prop :=
  (inner n v v = 0 \/ inner n w w = 0 -> o = None) /\
  (inner n v v <> 0 -> inner n w w <> 0 -> exists a, o = Some a /\ 0 <= a <= (if directed then PI else PI / 2) /\
   sqrt (inner n v v) * sqrt (inner n w w) * cos a = if directed then inner n v w else Rabs (inner n v w)).
(** the new arrays of the extension are not where the arguments are; the extension needs
    vectors with components.  [a0], [a1]: the axes of the vectors *)
Definition room (l : lib) (a0 a1 : nat) (v0 v1 : view) : Prop :=
  match l with
  | Python => True
  | Extension f0 f1 => (0 < nth a0 (shape v0) 0)%nat /\ apart (new_array f0 (drop a0 (shape v0))) v0 /\
    apart (new_array f0 (drop a0 (shape v0))) v1 /\ apart (new_array f1 (drop a1 (shape v1))) v1
  end.
