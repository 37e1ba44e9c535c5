(** Specification vocabulary for C01-C04, independent of the model's loops. *)
From Verif Require Import Base ModelVolt.
Open Scope R_scope.

(** The value a position-wise assignment leaves on object [l]: the last one
    written to it ([None] if it is not written at all).  One object may
    occur several times in [ls]. *)
Definition written_last {V} (ls : list loc) (vs : list V) (l : loc) (v : V) :=
  exists i, nth_error ls i = Some l /\ nth_error vs i = Some v /\
    forall j, (i < j)%nat -> nth_error ls j = Some l -> nth_error vs j = None.
Definition not_written {V} (ls : list loc) (vs : list V) (l : loc) :=
  forall j, nth_error ls j = Some l -> nth_error vs j = None.

(** [after] is [before] with the attribute read by [get] assigned
    position-wise on the objects [ls], the attributes [same1] and [same2]
    untouched. *)
Definition assigned {V A B} (get : eattrs -> V) (same1 : eattrs -> A)
    (same2 : eattrs -> B) (ls : list loc) (vs : list V) (before after : heap) :=
  forall l,
    same1 (after l) = same1 (before l) /\ same2 (after l) = same2 (before l) /\
    (not_written ls vs l -> get (after l) = get (before l)) /\
    (forall v, written_last ls vs l v -> get (after l) = v).

(** An iterable that can be assigned to [n] electrodes without raising. *)
Definition assignable {V} (n : nat) (v : viter V) : Prop :=
  match v with
  | NotIterable => False
  | Iter vs fails => fails = None \/ (n <= List.length vs)%nat
  end.
Definition opt_assignable {V} (n : nat) (v : option (viter V)) : Prop :=
  match v with None => True | Some v => assignable n v end.
Definition values {V} (v : option (viter V)) : list V :=
  match v with Some (Iter vs _) => vs | _ => [] end.
Definition given {A} (v : option A) : Prop := v <> None.

(** Nested [with] blocks, outermost first. *)
Definition nested (levels : list (option (viter R) * option (viter R)))
    (body : prog) : prog :=
  fold_right (fun lv p => with_voltages (fst lv) (snd lv) p) body levels.

(** What assigning a value that is not assignable raises. *)
Definition refusal {V} (v : viter V) : exn :=
  match v with Iter _ (Some e) => e | _ => TypeError end.
