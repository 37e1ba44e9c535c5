(** What it means that a call of an extension function gives back what it took. *)
From Coq Require Import List String Arith Bool.
From Verif Require Import ModelRefs.
Import ListNotations.
Notation length := List.length.
Open Scope list_scope.

(** Numbers not yet handed out belong to no object and no block; None, True and False exist. *)
Definition well_formed (h : heap) : Prop :=
  (forall x, h_next h <= x -> h_count h x = 0 /\ h_blocks h x = 0) /\
  0 < h_count h py_none /\ 0 < h_count h py_true /\ 0 < h_count h py_false.

(** The caller holds a reference to each argument. *)
Definition held (h : heap) (args : list arg) : Prop :=
  forall k o, In (Arg k o) args -> k <> KMissing /\ 0 < h_count h o.

(** References the caller receives with a result. *)
Definition given (r : result) (x : obj) : nat :=
  match r with
  | NULL => 0
  | Obj o items => (if (x =? o)%nat then 1 else 0) + count_occ Nat.eq_dec items x
  end.

(** The references to every object are those before the call and the ones in the
    result; the blocks of memory are those before the call; a tuple is new. *)
Definition settled (h : heap) (r : result) (h' : heap) : Prop :=
  (forall x, h_count h' x = h_count h x + given r x) /\
  (forall b, h_blocks h' b = h_blocks h b) /\
  (forall o items, r = Obj o items -> items <> [] -> h_count h o = 0 /\ ~ In o items).

(** One reference to the object [o] is left that nobody will give up. *)
Definition settled_but (o : obj) (h : heap) (r : result) (h' : heap) : Prop :=
  (forall x, h_count h' x = h_count h x + given r x + (if (x =? o)%nat then 1 else 0)) /\
  (forall b, h_blocks h' b = h_blocks h b) /\
  (forall o' items, r = Obj o' items -> items = []).

(** NULL with an exception set, or an object with none; the lock is held. *)
Definition orderly (r : result) (s : state) : Prop :=
  gil s = true /\ (r = NULL <-> err s = true).

(** The caller drops a result: its reference, and those of a tuple that goes away. *)
Definition dec (f : nat -> nat) (o : nat) : nat -> nat := fun x => if (x =? o)%nat then f x - 1 else f x.
Definition dropped (r : result) (h : heap) : heap :=
  match r with
  | NULL => h
  | Obj o items =>
      let c := dec (h_count h) o in
      Heap (if (c o =? 0)%nat then fold_left dec items c else c) (h_blocks h) (h_next h)
  end.

(** A history of calls: function, arguments, how the choices fall, and whether
    the caller keeps the result.  [None] when a call does not come back. *)
Record event := Event { e_fun : prog; e_args : list arg; e_orc : nat -> nat; e_keep : bool }.
Fixpoint history (es : list event) (h : heap) : option (list result * heap) :=
  match es with
  | [] => Some ([], h)
  | e :: es =>
      match call (e_fun e) (e_args e) (e_orc e) h with
      | Crash => None
      | Done r s =>
          let h' := leave s in
          match history es (if e_keep e then h' else dropped r h') with
          | None => None
          | Some (rs, h'') => Some (if e_keep e then (r :: rs, h'') else (rs, h''))
          end
      end
  end.

(** The caller holds the arguments of every call when it makes it. *)
Fixpoint held_throughout (es : list event) (h : heap) : Prop :=
  match es with
  | [] => True
  | e :: es =>
      held h (e_args e) /\
      match call (e_fun e) (e_args e) (e_orc e) h with
      | Crash => True
      | Done r s => held_throughout es (if e_keep e then leave s else dropped r (leave s))
      end
  end.

(** No call of the history raises. *)
Fixpoint valued_throughout (es : list event) (h : heap) : Prop :=
  match es with
  | [] => True
  | e :: es =>
      match call (e_fun e) (e_args e) (e_orc e) h with
      | Crash => True
      | Done r s => r <> NULL /\ valued_throughout es (if e_keep e then leave s else dropped r (leave s))
      end
  end.

Definition given_all (rs : list result) (x : obj) : nat := list_sum (map (fun r => given r x) rs).

(** Function [f] of the module with [n] parameters, other than those named. *)
Definition provided (f : prog) (n : nat) : Prop := exists name, In (name, (n, f)) functions.
Definition provided_but (names : list string) (f : prog) (n : nat) : Prop :=
  exists name, In (name, (n, f)) functions /\ ~ In name names.

(** The functions of Euler angles, whose last parameter is the axes. *)
Definition euler_functions : list (nat * prog) := [(4, euler_matrix); (2, euler_from_matrix); (4, quaternion_from_euler)].
(** The last argument is a string. *)
Definition axes_by_name (args : list arg) : Prop := exists before o, args = before ++ [Arg KText o].
(** A call of function [f] that does not name axes of Euler angles. *)
Definition unnamed (f : prog) (args : list arg) : Prop :=
  In (length args, f) euler_functions -> ~ axes_by_name args.
