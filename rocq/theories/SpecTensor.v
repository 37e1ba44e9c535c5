(** What symmetric, traceless and rotated tensors are; independent of the
    model's index maps. *)
From Coq Require Import Permutation.
From Verif Require Import Base.
Open Scope R_scope.

Definition axes_ok (idx : list nat) : Prop := Forall (fun a => (a < 3)%nat) idx.
Definition idx_of_order (n : nat) (idx : list nat) : Prop :=
  List.length idx = n /\ axes_ok idx.

(** A tensor of order [n] is a real for each list of [n] axes. *)
Definition tens := list nat -> R.

(** invariant under every permutation of its indices *)
Definition symmetric (n : nat) (T : tens) : Prop :=
  forall i j, idx_of_order n i -> Permutation i j -> T i = T j.

(** zero trace over every pair of index positions *)
Definition traceless (n : nat) (T : tens) : Prop :=
  forall l1 l2 l3, axes_ok l1 -> axes_ok l2 -> axes_ok l3 ->
  (List.length l1 + List.length l2 + List.length l3 + 2 = n)%nat ->
  T (l1 ++ 0%nat :: l2 ++ 0%nat :: l3) +
  T (l1 ++ 1%nat :: l2 ++ 1%nat :: l3) +
  T (l1 ++ 2%nat :: l2 ++ 2%nat :: l3) = 0.

(** row-major position of an index in a flattened 3 x ... x 3 array:
    ((i_1*3 + i_2)*3 + ...) + i_n *)
Definition rowmajor (idx : list nat) : nat :=
  fold_left (fun p a => (3 * p + a)%nat) idx 0%nat.

(** the flat array [t] holds the tensor [T] *)
Definition holds (n : nat) (t : list R) (T : tens) : Prop :=
  List.length t = (3 ^ n)%nat /\
  forall idx, idx_of_order n idx -> nth_error t (rowmajor idx) = Some (T idx).

(** full contraction of every index with a matrix:
    (rot r T)_{a1...an} = sum_{b1...bn} r_{b1 a1} ... r_{bn an} T_{b1...bn} *)
Fixpoint rot (r : nat -> nat -> R) (T : tens) (idx : list nat) : R :=
  match idx with
  | [] => T []
  | a :: rest =>
      r 0%nat a * rot r (fun l => T (0%nat :: l)) rest +
      r 1%nat a * rot r (fun l => T (1%nat :: l)) rest +
      r 2%nat a * rot r (fun l => T (2%nat :: l)) rest
  end.
Definition mmul (r s : nat -> nat -> R) : nat -> nat -> R :=
  fun a b => r a 0%nat * s 0%nat b + r a 1%nat * s 1%nat b + r a 2%nat * s 2%nat b.
Definition transpose (r : nat -> nat -> R) : nat -> nat -> R := fun a b => r b a.
Definition delta3 : nat -> nat -> R := fun a b => if Nat.eqb a b then 1 else 0.
(** r^T r = 1 and r r^T = 1 *)
Definition orthogonal (r : nat -> nat -> R) : Prop :=
  forall a b, (a < 3)%nat -> (b < 3)%nat ->
  mmul (transpose r) r a b = delta3 a b /\ mmul r (transpose r) a b = delta3 a b.

(** The documented order of the independent derivatives. *)
Definition doc_names (n : nat) : list string :=
  match n with
  | 0 => [""]
  | 1 => ["x"; "y"; "z"]
  | 2 => ["xx"; "xy"; "xz"; "yy"; "yz"]
  | 3 => ["xxy"; "xxz"; "yyz"; "xyy"; "xzz"; "yzz"; "xyz"]
  | 4 => ["xxxy"; "xxxz"; "xxyy"; "xxzz"; "xyyy"; "xzzz"; "yyyz"; "yyzz"; "yzzz"]
  | 5 => ["xxxyy"; "xxxyz"; "xxxzz"; "xxyyy"; "xxyyz"; "xxyzz"; "xxzzz"; "xyyyz";
          "xyyzz"; "yyyzz"; "yyzzz"]
  | _ => []
  end%string%nat.

(** a derivative name spelt out as a list of axes: x is 0, y is 1, z is 2 *)
Inductive spells : string -> list nat -> Prop :=
| spells_nil : spells ""%string []
| spells_x s l : spells s l -> spells ("x" ++ s)%string (0%nat :: l)
| spells_y s l : spells s l -> spells ("y" ++ s)%string (1%nat :: l)
| spells_z s l : spells s l -> spells ("z" ++ s)%string (2%nat :: l).
