From Verif Require Import Base ModelHelpers.
Open Scope R_scope.
Notation length := List.length.

(** ** C150 *)
(** an index with [j] put in at position [a], a shape without entry [a] *)
Definition put_at {A} (a : nat) (x : A) (l : list A) : list A := firstn a l ++ x :: skipn a l.
Definition without {A} (a : nat) (l : list A) : list A := firstn a l ++ skipn (S a) l.
(** the axis meant by a number, negative ones counting from the end *)
Definition means (axis : Z) (ndim a : nat) : Prop :=
  (a < ndim)%nat /\ (axis = Z.of_nat a \/ axis = Z.of_nat a - Z.of_nat ndim)%Z.
(** [b] holds the Euclidean lengths of the vectors along axis [a] *)
Definition lengths_along (x : nd) (a : nat) (b : nd) : Prop :=
  dims b = without a (dims x) /\
  forall idx, Forall2 lt idx (dims b) ->
    0 <= item b idx /\
    (item b idx) ^ 2 = sumR (map (fun j => (item x (put_at a j idx)) ^ 2) (seq 0 (nth a (dims x) 0%nat))).

(** ** C151: a pool that runs each call once, when it is submitted, and keeps
    its value *)
Fixpoint pool {S A} (ops : list (op S A)) (values : list A) (s : S) : list A * S :=
  match ops with
  | [] => ([], s)
  | Submit t :: r => let '(v, s) := t s in pool r (values ++ [v]) s
  | Get n :: r =>
      match nth_error values n with
      | None => pool r values s
      | Some v => let '(vs, s) := pool r values s in (v :: vs, s)
      end
  | Other f :: r => pool r values (f s)
  end.
(** how often handle [n] is got, and how many calls are submitted *)
Definition gets {S A} (ops : list (op S A)) : list nat :=
  flat_map (fun o => match o with Get n => [n] | _ => [] end) ops.
Definition submitted {S A} (ops : list (op S A)) : list (call S A) :=
  flat_map (fun o => match o with Submit t => [t] | _ => [] end) ops.
(** a handle is used only after it was returned; [k] handles exist *)
Fixpoint valid {S A} (k : nat) (ops : list (op S A)) : Prop :=
  match ops with
  | [] => True
  | Submit _ :: r => valid (k + 1) r
  | Get n :: r => (n < k)%nat /\ valid k r
  | Other _ :: r => valid k r
  end.
(** the program does nothing else in between *)
Definition only_pool {S A} (ops : list (op S A)) : Prop := forall f, ~ In (Other f) ops.
(** a call without effect whose value does not depend on the state *)
Definition pure {S A} (t : call S A) : Prop := exists v, forall s, t s = (v, s).

(** ** C152 *)
Definition dist2 (p q : R * R * R) : R :=
  (fst (fst p) - fst (fst q)) ^ 2 + (snd (fst p) - snd (fst q)) ^ 2 + (snd p - snd q) ^ 2.
(** calls made one after the other *)
Fixpoint run_calls {S A} (ts : list (call S A)) (s : S) : list A * S :=
  match ts with [] => ([], s) | t :: r => let '(v, s) := t s in let '(vs, s) := run_calls r s in (v :: vs, s) end.
