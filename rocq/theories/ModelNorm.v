(** Model of vector_norm and unit_vector, in transformations.py and in the extension
    module transformations.c, and of the random numbers of the extension module.

    Arrays are views of one memory of doubles, as in numpy: a start, a shape and the
    strides (counted in doubles, not bytes), so that two arrays can overlap.  Real
    numbers stand for doubles; the length of a zero vector makes numpy and C divide by
    zero and store nan or infinities, here the quotient is an unspecified number, and
    the theorems say nothing about it.  Arguments are arrays of doubles already:
    conversion of lists and of other types is numpy's. *)
From Verif Require Import Base ModelCExt.
Open Scope R_scope.
Notation length := List.length.

Definition memory := Z -> R.
Record view := View { start : Z; shape : list nat; strides : list Z }.
Fixpoint offset (ss : list Z) (idx : list nat) : Z :=
  match ss, idx with s :: ss, i :: idx => (Z.of_nat i * s + offset ss idx)%Z | _, _ => 0%Z end.
Definition addr (v : view) (idx : list nat) : Z := (start v + offset (strides v) idx)%Z.
Definition get (m : memory) (v : view) (idx : list nat) : R := m (addr v idx).
Definition put (m : memory) (a : Z) (x : R) : memory := fun b => if (b =? a)%Z then x else m b.
(** the indices of an array of a shape, last index fastest: the order of PyArray_IterNew,
    whatever the strides *)
Fixpoint indices (shape : list nat) : list (list nat) :=
  match shape with [] => [[]] | d :: r => flat_map (fun i => map (cons i) (indices r)) (seq 0 d) end.
(** the shape without an axis, and an index with one put in *)
Definition drop (a : nat) {A} (l : list A) : list A := firstn a l ++ skipn (S a) l.
Definition insert (a s : nat) (idx : list nat) : list nat := firstn a idx ++ s :: skipn a idx.
(** strides of a new array *)
Fixpoint count (shape : list nat) : nat := match shape with [] => 1 | d :: r => d * count r end%nat.
Fixpoint packed (shape : list nat) : list Z := match shape with [] => [] | d :: r => Z.of_nat (count r) :: packed r end.
Definition new_array (at_ : Z) (shape : list nat) : view := View at_ shape (packed shape).
(** axis as given: negative ones count from the end; None is out of range.
    transformations.c 3461-3467, 3656-3662; the same in numpy *)
Definition the_axis (axis : Z) (n : nat) : option nat :=
  let axis := if (axis <? 0)%Z then (axis + Z.of_nat n)%Z else axis in
  if ((axis <? 0) || (Z.of_nat n <=? axis))%Z%bool then None else Some (Z.to_nat axis).

(** what is returned: a number, a new array, or None *)
Inductive returned := Number (x : R) | Array (shape : list nat) (at_ : list nat -> R) | Nothing.

(** the sum of the squares along an axis, 3513-3516 and 3526-3532 *)
Definition squares (m : memory) (v : view) (rows : list (list nat)) : R := fold_left (fun len i => len + get m v i * get m v i) rows 0.
Definition lane (a size : nat) (idx : list nat) : list (list nat) := map (fun s => insert a s idx) (seq 0 size).

(** ** vector_norm of the extension, transformations.c 3398-3558 *)
(** the loop 3510-3520 and 3524-3536: the iterators of data and out advance together;
    past the last element of out the write is out of bounds (if out is contiguous; the
    iterator of another array would start again) *)
Fixpoint c_norm_loop (m : memory) (data : view) (a size : nat) (out : view) (rows outs : list (list nat)) : outcome memory :=
  match rows with
  | [] => Ret m
  | r :: rows =>
    match outs with
    | [] => Undef
    | o :: outs => c_norm_loop (put m (addr out o) (sqrt (squares m data (lane a size r)))) data a size out rows outs
    end
  end.
(** PyArray_IterAllButAxis: one step for each index of the other axes, none if the array
    is empty *)
Definition all_but (a : nat) (shape : list nat) : list (list nat) := if (count shape =? 0)%nat then [] else indices (drop a shape).
(** PyArray_Return turns arrays without dimensions into numbers *)
Definition c_return (shape : list nat) (at_ : list nat -> R) : returned := match shape with [] => Number (at_ []) | _ => Array shape at_ end.
(** [fresh]: where PyArray_SimpleNew puts the new array, whose elements are what the
    memory holds *)
Definition c_vector_norm (m : memory) (fresh : Z) (data : view) (axis : option Z) (oout : option view) : outcome (memory * returned) :=
  match axis with
  | None =>
    match oout with
    | Some _ => Exc ValueError
    | None => Ret (m, Number (sqrt (squares m data (indices (shape data)))))
    end
  | Some axis =>
    let n := length (shape data) in
    match the_axis axis n with
    | None => Exc ValueError
    | Some a =>
      let newshape := drop a (shape data) in
      let size := nth a (shape data) 0%nat in
      match oout with
      | None =>
        let out := new_array fresh newshape in
        obind (c_norm_loop m data a size out (all_but a (shape data)) (indices newshape)) (fun m =>
        Ret (m, c_return newshape (get m out)))
      | Some out =>
        if negb (n =? length (shape out) + 1)%nat then Exc ValueError
        (* 3490-3496 compares the shape of data with newshape, which was made of it *)
        else if negb (forallb (fun p => fst p =? snd p)%nat (combine (drop a (shape data)) newshape)) then Exc ValueError
        else obind (c_norm_loop m data a size out (all_but a (shape data)) (indices (shape out))) (fun m => Ret (m, Nothing))
      end
    end
  end.

(** ** unit_vector of the extension, 3567-3743 *)
(** 3620-3623, 3645-3649, 3690-3692 and 3713-3717 *)
Definition c_scale_loop (m : memory) (data out : view) (len : R) (idxs : list (list nat)) : memory :=
  fold_left (fun m i => put m (addr out i) (get m data i * len)) idxs m.
Definition same_shape (a b : list nat) : bool := ((length a =? length b) && forallb (fun p => fst p =? snd p) (combine a b))%nat%bool.
Definition c_unit_vector (m : memory) (fresh : Z) (data : view) (axis : option Z) (oout : option view) : outcome (memory * returned) :=
  let n := length (shape data) in
  let out := match oout with None => new_array fresh (shape data) | Some out => out end in
  if negb (same_shape (shape data) (shape out)) then Exc ValueError else
  let finish m := Ret (m, match oout with None => c_return (shape data) (get m out) | Some _ => Nothing end) in
  match axis with
  | None =>
    let idxs := indices (shape data) in
    let len := 1 / sqrt (squares m data idxs) in
    finish (c_scale_loop m data out len idxs)
  | Some axis =>
    match the_axis axis n with
    | None => Exc ValueError
    | Some a =>
      let size := nth a (shape data) 0%nat in
      finish (fold_left (fun m r => c_scale_loop m data out (1 / sqrt (squares m data (lane a size r))) (lane a size r)) (all_but a (shape data)) m)
    end
  end.

(** ** vector_norm of transformations.py, 1688-1724 *)
(** numpy.sum along an axis, or of all elements *)
Definition np_sum (x : list nat -> R) (shape : list nat) (axis : option nat) : list nat * (list nat -> R) :=
  match axis with
  | None => ([], fun _ => sumR (map x (indices shape)))
  | Some a => (drop a shape, fun idx => sumR (map x (lane a (nth a shape 0%nat) idx)))
  end.
Definition np_axis (axis : option Z) (n : nat) : res (option nat) :=
  match axis with
  | None => Ok None
  | Some axis => match the_axis axis n with Some a => Ok (Some a) | None => Raise ValueError end (* AxisError *)
  end.
Definition atleast_1d (s : list nat * (list nat -> R)) : list nat * (list nat -> R) :=
  match fst s with [] => ([1%nat], fun _ => snd s []) | _ => s end.
(** out[...] = x, element by element *)
Definition assign (m : memory) (out : view) (x : list nat -> R) : memory := fold_left (fun m i => put m (addr out i) (x i)) (indices (shape out)) m.
Definition py_vector_norm (m : memory) (data : view) (axis : option Z) (out : option view) : res (memory * returned) :=
  let x := get m data in (* 1713: a copy *)
  let sq := fun i => x i * x i in
  match out with
  | None =>
    if (length (shape data) =? 1)%nat then Ok (m, Number (sqrt (sumR (map sq (indices (shape data))))))
    else bind (np_axis axis (length (shape data))) (fun axis =>
      let s := atleast_1d (np_sum sq (shape data) axis) in
      Ok (m, Array (fst s) (fun i => sqrt (snd s i))))
  | Some out =>
    bind (np_axis axis (length (shape data))) (fun axis =>
      let s := np_sum sq (shape data) axis in
      if same_shape (fst s) (shape out) then
        let m := assign m out (snd s) in
        let y := get m out in
        Ok (assign m out (fun i => sqrt (y i)), Nothing)
      else Raise ValueError)
  end.

(** ** unit_vector of transformations.py, 1727-1768 *)
(** numpy's broadcasting: the last dimensions must agree or be 1 *)
Fixpoint fits (src dst : list nat) : bool := (* reversed shapes *)
  match src, dst with
  | [], _ => true
  | d :: src, [] => ((d =? 1)%nat && fits src [])%bool
  | d :: src, e :: dst => (((d =? 1) || (d =? e))%nat && fits src dst)%bool
  end.
Fixpoint stretch (src idx : list nat) : list nat := (* reversed shape and index *)
  match src, idx with
  | [], _ => []
  | d :: src, [] => 0%nat :: stretch src []
  | d :: src, i :: idx => (if (d =? 1)%nat then 0%nat else i) :: stretch src idx
  end.
Definition broadcast (s : list nat * (list nat -> R)) : list nat -> R := fun idx => snd s (rev (stretch (rev (fst s)) (rev idx))).
Definition expand_dims (s : list nat * (list nat -> R)) (axis : Z) : res (list nat * (list nat -> R)) :=
  match the_axis axis (length (fst s) + 1) with
  | None => Raise ValueError
  | Some a => Ok (firstn a (fst s) ++ 1%nat :: skipn a (fst s), fun idx => snd s (drop a idx))
  end.
(** 1762-1766 for the array x: the quotient, of the shape of x *)
Definition py_divide (x : list nat -> R) (shape : list nat) (axis : option Z) : res (list nat -> R) :=
  bind (np_axis axis (length shape)) (fun a =>
  let length_ := atleast_1d (np_sum (fun i => x i * x i) shape a) in
  let length_ := (fst length_, fun i => sqrt (snd length_ i)) in
  bind (match axis with Some axis => expand_dims length_ axis | None => Ok length_ end) (fun length_ =>
  (* data /= length: the result must have the shape of data *)
  if ((length (fst length_) <=? length shape)%nat && fits (rev (fst length_)) (rev shape))%bool
  then Ok (fun i => x i / broadcast length_ i)
  else Raise ValueError)).
(** The memory after the call is part of the result also when an exception is raised.
    [is_data]: out is data, the same object. *)
Definition py_unit_vector (m : memory) (data : view) (axis : option Z) (out : option view) (is_data : bool) : memory * res returned :=
  match out with
  | None =>
    let x := get m data in
    if (length (shape data) =? 1)%nat
    then (m, Ok (Array (shape data) (fun i => x i / sqrt (sumR (map (fun i => x i * x i) (indices (shape data)))))))
    else (m, bind (py_divide x (shape data) axis) (fun y => Ok (Array (shape data) y)))
  | Some out =>
    let copied := if is_data then Ok m
      else if fits (rev (shape data)) (rev (shape out)) then Ok (assign m out (broadcast (shape data, get m data))) else Raise ValueError in
    match copied with
    | Raise e => (m, Raise e)
    | Ok m =>
      match py_divide (get m out) (shape out) axis with
      | Raise e => (m, Raise e)
      | Ok y => (assign m out y, Ok Nothing)
      end
    end
  end.

(** ** random_doubles and random_vector of the extension, 102-140 and 3752-3785 *)
(** The buffer is filled with 32-bit words [w]; each double is stored where its two
    words were.  [bits]: the words of a double.  All results are exact in doubles. *)
Fixpoint c_random_loop (bits : R -> Z * Z) (size k : nat) (w : nat -> Z) : list R :=
  match size with
  | O => []
  | S size =>
    let a := Z.shiftr (w (2 * k)%nat) 5 in
    let b := Z.shiftr (w (2 * k + 1)%nat) 6 in
    let x := (IZR a * 67108864 + IZR b) / 9007199254740992 in
    x :: c_random_loop bits size (S k) (fun i => if (i =? 2 * k)%nat then fst (bits x) else if (i =? 2 * k + 1)%nat then snd (bits x) else w i)
  end.
(** [source]: what /dev/urandom gives, None if it cannot be read.  A negative size makes
    PyArray_SimpleNew fail, 3765-3769. *)
Definition memory_error : exn := OtherExn 12.
Definition c_random_vector (bits : R -> Z * Z) (source : option (nat -> Z)) (size : Z) : outcome (list R) :=
  if (size <? 0)%Z then Exc memory_error
  else if (size <? 1)%Z then Ret []
  else match source with
       | None => Exc ValueError
       | Some w => Ret (c_random_loop bits (Z.to_nat size) 0 w)
       end.
