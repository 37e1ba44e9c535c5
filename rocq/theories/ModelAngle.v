(** Model of angle_between_vectors of transformations.py, 1807-1835, for arrays: the angles
    between the vectors along an axis of two arrays of doubles, with numpy's broadcasting.

    Arrays are views of a memory, as in ModelNorm.  vector_norm is the function of
    transformations.py or the one of the extension module, which takes its place when the
    extension can be imported (1925). *)
From Verif Require Import Base ModelCExt ModelNorm.
Open Scope R_scope.
Notation length := List.length.

(** numpy arrays: a shape and the elements; no dimensions: a number *)
Definition arr := (list nat * (list nat -> R))%type.
(** the shape of the result of an operation on two arrays, reversed shapes; None:
    ValueError, operands could not be broadcast together *)
Fixpoint broadcast_shape (s t : list nat) : option (list nat) :=
  match s, t with
  | [], t => Some t
  | s, [] => Some s
  | d :: s, e :: t =>
    match broadcast_shape s t with
    | None => None
    | Some r => if (d =? e)%nat then Some (d :: r) else if (d =? 1)%nat then Some (e :: r) else if (e =? 1)%nat then Some (d :: r) else None
    end
  end.
(** numpy.multiply *)
Definition multiply (x y : arr) : res arr :=
  match broadcast_shape (rev (fst x)) (rev (fst y)) with
  | None => Raise ValueError
  | Some r => Ok (rev r, fun i => broadcast x i * broadcast y i)
  end.

(** which vector_norm is called; the places where the two calls of the extension's put
    their new arrays *)
Inductive lib := Python | Extension (fresh0 fresh1 : Z).
Definition norm_of (l : lib) (second : bool) (m : memory) (v : view) (axis : Z) : res (memory * returned) :=
  match l with
  | Python => py_vector_norm m v (Some axis) None
  | Extension f0 f1 =>
    match c_vector_norm m (if second then f1 else f0) v (Some axis) None with
    | Ret x => Ok x | Exc e => Raise e | Undef => Raise (OtherExn 13)
    end
  end.
Definition as_arr (r : returned) : arr := match r with Number x => ([], fun _ => x) | Array s x => (s, x) | Nothing => ([], fun _ => 0) end.

(** 1833: dot /= n, in place unless dot is a number; then arccos of the quotient, None for
    nan: the divisor is 0 or the quotient beyond 1.  The elements of dot and n. *)
Definition arccos (directed : bool) (dot n : R) : option R :=
  if Req_EM_T n 0 then None
  else let q := if directed then dot / n else Rabs (dot / n) in
       if Rle_dec (Rabs q) 1 then Some (acos q) else None.
(** 1830-1834: the shape and the elements of what is returned.  The arguments are arrays
    of doubles: numpy.array does not copy them, 1830-1831. *)
Definition angle_arrays (l : lib) (m : memory) (v0 v1 : view) (directed : bool) (axis : Z) : res (list nat * (list nat -> option R)) :=
  bind (multiply (shape v0, get m v0) (shape v1, get m v1)) (fun p =>
  bind (np_axis (Some axis) (length (fst p))) (fun a =>
  let dot := np_sum (snd p) (fst p) a in
  bind (norm_of l false m v0 axis) (fun r0 =>
  bind (norm_of l true (fst r0) v1 axis) (fun r1 =>
  bind (multiply (as_arr (snd r0)) (as_arr (snd r1))) (fun n =>
  match fst dot with
  | [] => Ok (fst n, fun i => arccos directed (snd dot []) (snd n i))
  | s => if ((length (fst n) <=? length s)%nat && fits (rev (fst n)) (rev s))%bool
         then Ok (s, fun i => arccos directed (snd dot i) (broadcast n i))
         else Raise ValueError
  end))))).
