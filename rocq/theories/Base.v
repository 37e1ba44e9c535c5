(** Python-level vocabulary shared by the model files. *)
From Coq Require Export String.
From Coq Require Export Reals Arith ZArith Lia Lra Bool List.
Export ListNotations.
Open Scope list_scope.

(** Exceptions as values.  [OtherExn n] stands for any further exception
    (user code, external libraries). *)
Inductive exn : Type :=
| IndexError | TypeError | ValueError | KeyError | AttributeError
| UnboundLocalError | ZeroDivisionError | NotImplementedError
| AssertionError | RuntimeError | GeneratorExit | OtherExn (n : nat).

Inductive res (A : Type) : Type :=
| Ok (a : A)
| Raise (e : exn).
Arguments Ok {A} a.
Arguments Raise {A} e.

Definition bind {A B} (x : res A) (f : A -> res B) : res B :=
  match x with Ok a => f a | Raise e => Raise e end.

(** Python list indexing with an integer: negative indices count from the
    end, out of range is an IndexError. *)
Definition py_index {A} (l : list A) (i : Z) : res A :=
  let n := Z.of_nat (List.length l) in
  let j := (if (i <? 0)%Z then (i + n)%Z else i) in
  if (j <? 0)%Z then Raise IndexError
  else match nth_error l (Z.to_nat j) with
       | Some a => Ok a
       | None => Raise IndexError
       end.

(** Finite real sums. *)
Fixpoint sumR (l : list R) : R :=
  match l with [] => 0%R | x :: r => (x + sumR r)%R end.

(** [np.array] element-wise helpers on rows. *)
Fixpoint map2 {A B C} (f : A -> B -> C) (a : list A) (b : list B) : list C :=
  match a, b with
  | x :: a', y :: b' => f x y :: map2 f a' b'
  | _, _ => []
  end.

(** [range(-n, n+1)] as used for the cover images. *)
Definition zrange (lo hi : Z) : list Z :=
  map (fun i => (lo + Z.of_nat i)%Z) (seq 0 (Z.to_nat (hi - lo))).

(** Tables of functions of an index, [ [f 0; ...; f (n-1)] ]. *)
Definition tab {A} (n : nat) (f : nat -> A) : list A := map f (seq 0 n).
