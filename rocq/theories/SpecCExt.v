(** Agreement between the extension module and the Python code, for C119 on. *)
From Verif Require Import Base ModelTrans SpecTrans ModelCExt.
Open Scope R_scope.
Notation length := List.length.

(** the call returns this 4 x 4 matrix; this vector; an equal value *)
Definition gives4 (o : outcome (nat -> nat -> R)) (m : nat -> nat -> R) : Prop := exists m', o = Ret m' /\ same4 m' m.
Definition givesv (n : nat) (o : outcome (nat -> R)) (v : nat -> R) : Prop := exists v', o = Ret v' /\ vsame n v' v.
(** a sequence of at least n numbers *)
Definition numbers (n : nat) (a : arg) : Prop := exists l, a = Vec l /\ (n <= length l)%nat.
Definition square4 (a : arg) : Prop := exists m, a = Mat 4 4 m.
Definition no_or (p : arg -> Prop) (a : option arg) : Prop := match a with None => True | Some a => p a end.
(** the numbers of a sequence, and the elements of a matrix *)
Definition entries (a : arg) : nat -> R := match a with Vec l => fun k => nth k l 0 | _ => fun _ => 0 end.
Definition elements (a : arg) : nat -> nat -> R := match a with Mat _ _ m => m | _ => fun _ _ => 0 end.
(** the call returns a value or raises ValueError *)
Definition orderly {A} (o : outcome A) : Prop := o <> Undef /\ forall e, o = Exc e -> e = ValueError.
(** a name of Euler axes read backwards; characters of ASCII only *)
Definition backwards (s : string) : string := string_of_list_ascii (rev (list_ascii_of_string s)).
Definition ascii_only (s : string) : Prop := Forall (fun c => (Ascii.nat_of_ascii c < 128)%nat) (list_ascii_of_string s).
Definition one_or_zero (b : bool) : Z := if b then 1%Z else 0%Z.
(** vectors that may be nan: equal, opposite *)
Definition fsame (a b : fvec) : Prop := match a, b with Some v, Some w => vsame 3 v w | None, None => True | _, _ => False end.
Definition fneg (a : fvec) : fvec := option_map vneg a.
