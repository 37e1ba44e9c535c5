(** Cross products of arrays of vectors, for C173. *)
From Verif Require Import Base SpecTrans ModelNorm SpecNorm ModelAngle SpecAngle.
Open Scope R_scope.
Notation length := List.length.

(** broadcasting shapes of any lengths: missing dimensions, on the left, count as 1 *)
Definition widen (n : nat) (s : list nat) : list nat := repeat 1%nat (n - length s) ++ s.
Definition longer (s t : list nat) : nat := Nat.max (length s) (length t).
Definition go_together_any (s t : list nat) : Prop := go_together (widen (longer s t) s) (widen (longer s t) t).
Definition common_any (s t : list nat) : list nat := common (widen (longer s t) s) (widen (longer s t) t).
(** the index at which an array of shape s is read for an index of the common shape *)
Definition at_index_any (s idx : list nat) : list nat := at_index s (skipn (length idx - length s) idx).
(** the vector along axis a of the array x, at an index of the common shape of the other
    axes; a vector of two components lies in the plane *)
Definition vector_of (x : arr) (a : nat) (idx : list nat) (k : nat) : R :=
  let i := at_index_any (drop a (fst x)) idx in
  if (k <? nth a (fst x) 0)%nat then snd x (firstn a i ++ k :: skipn a i) else 0.
(** the volume spanned by three vectors, with its sign *)
Definition volume (u v w : nat -> R) : R :=
  u 0%nat * (v 1%nat * w 2%nat - v 2%nat * w 1%nat) + u 1%nat * (v 2%nat * w 0%nat - v 0%nat * w 2%nat) + u 2%nat * (v 0%nat * w 1%nat - v 1%nat * w 0%nat).
(** w is the vector product of u and v: perpendicular to both, as long as their
    parallelogram is large, and on the right-handed side *)
Definition is_product (u v w : nat -> R) : Prop :=
  inner 3 w u = 0 /\ inner 3 w v = 0 /\
  inner 3 w w = inner 3 u u * inner 3 v v - inner 3 u v * inner 3 u v /\ 0 <= volume u v w.
