(** Model of the matrix inversion of the extension module: invert_matrix22,
    invert_matrix33, invert_matrix44, invert_matrix and py_inverse_matrix of
    electrode/transformations.c.

    Real numbers in place of doubles: rounding is not modelled; a division by zero,
    which puts an infinity or nan into the result, is [None].  An array of
    size * size doubles is a function of row and column.  Allocation does not fail. *)
From Verif Require Import Base ModelTrans ModelCExt.
Open Scope R_scope.
Notation length := List.length.

(** the double k of an array of n columns, and an array of n columns given by a list *)
Definition flat (n : nat) (m : nat -> nat -> R) (k : nat) : R := m (k / n)%nat (k mod n)%nat.
Definition table (n : nat) (l : list R) : nat -> nat -> R := fun i j => nth (n * i + j) l 0.

(** ** invert_matrix22, 393-408; None for -1 *)
Definition invert22 (m : nat -> nat -> R) : option (nat -> nat -> R) :=
  let M := flat 2 m in
  let det := M 0%nat * M 3%nat - M 1%nat * M 2%nat in
  if iszero det then None
  else Some (table 2 [M 3%nat / det; - M 1%nat / det; - M 2%nat / det; M 0%nat / det]).

(** ** invert_matrix33, 413-441; result[i] is r_i, assigned again where the code does *)
Definition invert33 (m : nat -> nat -> R) : option (nat -> nat -> R) :=
  let M := flat 3 m in
  let r0 := M 8%nat * M 4%nat - M 7%nat * M 5%nat in
  let r1 := M 7%nat * M 2%nat - M 8%nat * M 1%nat in
  let r2 := M 5%nat * M 1%nat - M 4%nat * M 2%nat in
  let r3 := M 6%nat * M 5%nat - M 8%nat * M 3%nat in
  let r4 := M 8%nat * M 0%nat - M 6%nat * M 2%nat in
  let r5 := M 3%nat * M 2%nat - M 5%nat * M 0%nat in
  let r6 := M 7%nat * M 3%nat - M 6%nat * M 4%nat in
  let r7 := M 6%nat * M 1%nat - M 7%nat * M 0%nat in
  let r8 := M 4%nat * M 0%nat - M 3%nat * M 1%nat in
  let det := M 0%nat * r0 + M 3%nat * r1 + M 6%nat * r2 in
  if iszero det then None
  else let det := 1 / det in
  Some (table 3 (map (fun r => r * det) [r0; r1; r2; r3; r4; r5; r6; r7; r8])).

(** ** invert_matrix44, 446-526 *)
Definition invert44 (m : nat -> nat -> R) : option (nat -> nat -> R) :=
  let M := flat 4 m in
  let t0 := M 10%nat * M 15%nat in
  let t1 := M 14%nat * M 11%nat in
  let t2 := M 6%nat * M 15%nat in
  let t3 := M 14%nat * M 7%nat in
  let t4 := M 6%nat * M 11%nat in
  let t5 := M 10%nat * M 7%nat in
  let t6 := M 2%nat * M 15%nat in
  let t7 := M 14%nat * M 3%nat in
  let t8 := M 2%nat * M 11%nat in
  let t9 := M 10%nat * M 3%nat in
  let t10 := M 2%nat * M 7%nat in
  let t11 := M 6%nat * M 3%nat in
  let r0 := t0 * M 5%nat + t3 * M 9%nat + t4 * M 13%nat in
  let r0 := r0 - (t1 * M 5%nat + t2 * M 9%nat + t5 * M 13%nat) in
  let r1 := t1 * M 1%nat + t6 * M 9%nat + t9 * M 13%nat in
  let r1 := r1 - (t0 * M 1%nat + t7 * M 9%nat + t8 * M 13%nat) in
  let r2 := t2 * M 1%nat + t7 * M 5%nat + t10 * M 13%nat in
  let r2 := r2 - (t3 * M 1%nat + t6 * M 5%nat + t11 * M 13%nat) in
  let r3 := t5 * M 1%nat + t8 * M 5%nat + t11 * M 9%nat in
  let r3 := r3 - (t4 * M 1%nat + t9 * M 5%nat + t10 * M 9%nat) in
  let r4 := t1 * M 4%nat + t2 * M 8%nat + t5 * M 12%nat in
  let r4 := r4 - (t0 * M 4%nat + t3 * M 8%nat + t4 * M 12%nat) in
  let r5 := t0 * M 0%nat + t7 * M 8%nat + t8 * M 12%nat in
  let r5 := r5 - (t1 * M 0%nat + t6 * M 8%nat + t9 * M 12%nat) in
  let r6 := t3 * M 0%nat + t6 * M 4%nat + t11 * M 12%nat in
  let r6 := r6 - (t2 * M 0%nat + t7 * M 4%nat + t10 * M 12%nat) in
  let r7 := t4 * M 0%nat + t9 * M 4%nat + t10 * M 8%nat in
  let r7 := r7 - (t5 * M 0%nat + t8 * M 4%nat + t11 * M 8%nat) in
  let t0 := M 8%nat * M 13%nat in
  let t1 := M 12%nat * M 9%nat in
  let t2 := M 4%nat * M 13%nat in
  let t3 := M 12%nat * M 5%nat in
  let t4 := M 4%nat * M 9%nat in
  let t5 := M 8%nat * M 5%nat in
  let t6 := M 0%nat * M 13%nat in
  let t7 := M 12%nat * M 1%nat in
  let t8 := M 0%nat * M 9%nat in
  let t9 := M 8%nat * M 1%nat in
  let t10 := M 0%nat * M 5%nat in
  let t11 := M 4%nat * M 1%nat in
  let r8 := t0 * M 7%nat + t3 * M 11%nat + t4 * M 15%nat in
  let r8 := r8 - (t1 * M 7%nat + t2 * M 11%nat + t5 * M 15%nat) in
  let r9 := t1 * M 3%nat + t6 * M 11%nat + t9 * M 15%nat in
  let r9 := r9 - (t0 * M 3%nat + t7 * M 11%nat + t8 * M 15%nat) in
  let r10 := t2 * M 3%nat + t7 * M 7%nat + t10 * M 15%nat in
  let r10 := r10 - (t3 * M 3%nat + t6 * M 7%nat + t11 * M 15%nat) in
  let r11 := t5 * M 3%nat + t8 * M 7%nat + t11 * M 11%nat in
  let r11 := r11 - (t4 * M 3%nat + t9 * M 7%nat + t10 * M 11%nat) in
  let r12 := t2 * M 10%nat + t5 * M 14%nat + t1 * M 6%nat in
  let r12 := r12 - (t4 * M 14%nat + t0 * M 6%nat + t3 * M 10%nat) in
  let r13 := t8 * M 14%nat + t0 * M 2%nat + t7 * M 10%nat in
  let r13 := r13 - (t6 * M 10%nat + t9 * M 14%nat + t1 * M 2%nat) in
  let r14 := t6 * M 6%nat + t11 * M 14%nat + t3 * M 2%nat in
  let r14 := r14 - (t10 * M 14%nat + t2 * M 2%nat + t7 * M 6%nat) in
  let r15 := t10 * M 10%nat + t4 * M 2%nat + t9 * M 6%nat in
  let r15 := r15 - (t8 * M 6%nat + t11 * M 10%nat + t5 * M 2%nat) in
  let det := M 0%nat * r0 + M 4%nat * r1 + M 8%nat * r2 + M 12%nat * r3 in
  if iszero det then None
  else let det := 1 / det in
  Some (table 4 (map (fun r => r * det) [r0; r1; r2; r3; r4; r5; r6; r7; r8; r9; r10; r11; r12; r13; r14; r15])).

(** ** invert_matrix, 531-619 *)
Definition upd2 (m : nat -> nat -> R) (i j : nat) (x : R) : nat -> nat -> R :=
  fun a b => if ((a =? i) && (b =? j))%nat%bool then x else m a b.
Definition upd1 (s : nat -> nat) (i x : nat) : nat -> nat := fun a => if (a =? i)%nat then x else s a.
(** for (i = a; i < a + n; i++) and for (i = n - 1; i >= 0; i--) *)
Fixpoint loop {S} (a n : nat) (f : nat -> S -> S) (s : S) : S :=
  match n with O => s | Datatypes.S n => loop (Datatypes.S a) n f (f a s) end.
Fixpoint down {S} (n : nat) (f : nat -> S -> S) (s : S) : S :=
  match n with O => s | Datatypes.S n => down n f (f n s) end.
(** PIVOT_TOLERANCE, 79 *)
Definition pivot_tolerance : R := / 10 ^ 14.
(** 553-562: the row of the largest element of column k, from row k on *)
Definition find_pivot (size k : nat) (M : nat -> nat -> R) : nat :=
  fst (loop (S k) (size - S k)
    (fun i '(p, temp) => let temp1 := Rabs (M i k) in if Rlt_dec temp temp1 then (i, temp1) else (p, temp))
    (k, Rabs (M k k))).
(** 564-569 *)
Definition swap_rows (size k p : nat) (M : nat -> nat -> R) : nat -> nat -> R :=
  loop 0 size (fun i M => let temp := M k i in let M := upd2 M k i (M p i) in upd2 M p i temp) M.
(** 570-572 *)
Definition swap_seq (k p : nat) (seq : nat -> nat) : nat -> nat :=
  let i := seq k in let seq := upd1 seq k (seq p) in upd1 seq p i.
(** 580-591 *)
Definition eliminate (size k : nat) (M : nat -> nat -> R) : nat -> nat -> R :=
  let temp := M k k in
  let M := loop (S k) (size - S k) (fun j M => upd2 M j k (M j k / temp)) M in
  loop (S k) (size - S k) (fun j M =>
    let temp := M j k in
    let M := loop (S k) (size - S k) (fun i M => upd2 M j i (M j i - temp * M k i)) M in
    upd2 M j k temp) M.
(** 547-592: [steps] rounds from k on; false for return -1, with the arrays as they are then *)
Fixpoint forward (size steps k : nat) (M : nat -> nat -> R) (seq : nat -> nat) : bool * (nat -> nat -> R) * (nat -> nat) :=
  match steps with
  | O => (true, M, seq)
  | S steps =>
    let p := find_pivot size k M in
    let '(M, seq) := if (p =? k)%nat then (M, seq) else (swap_rows size k p M, swap_seq k p seq) in
    if Rlt_dec (Rabs (M k k)) pivot_tolerance then (false, M, seq)
    else forward size steps (S k) (eliminate size k M) seq
  end.
(** 594-599 *)
Definition unit_rows (size : nat) (seq : nat -> nat) : (nat -> nat -> R) * (nat -> nat) :=
  loop 0 size (fun i '(result, iseq) => (upd2 result i (seq i) 1, upd1 iseq (seq i) i)) (fun _ _ => 0, fun _ => 0%nat).
(** 601-617 *)
Definition substitute (size : nat) (M : nat -> nat -> R) (iseq : nat -> nat) (i : nat) (result : nat -> nat -> R) : nat -> nat -> R :=
  let is := iseq i in
  let result := loop 1 (size - 1) (fun k result =>
    let temp := loop is (k - is) (fun j temp => temp + M k j * result j i) 0 in
    upd2 result k i (result k i - temp)) result in
  down size (fun k result =>
    let temp := loop (S k) (size - S k) (fun j temp => temp - M k j * result j i) (result k i) in
    upd2 result k i (temp / M k k)) result.
(** 531-619: whether it failed, the input matrix afterwards, and the result, which
    holds an infinity or nan if some M[k][k] on the diagonal is 0 *)
Definition invert_matrix (size : nat) (M : nat -> nat -> R) : bool * (nat -> nat -> R) * option (nat -> nat -> R) :=
  let '(ok, M, seq) := forward size (size - 1) 0 M (fun k => k) in
  if ok then
    let '(result, iseq) := unit_rows size seq in
    (true, M, if all_below size (fun k => if Req_EM_T (M k k) 0 then false else true)
              then Some (loop 0 size (substitute size M iseq) result) else None)
  else (false, M, None).

(** ** inverse_matrix, 3140-3233 *)
(** How numpy got the array from the argument (PyArray_FROM_OTF, 3157): the argument
    is an array of doubles already; a new array was made from it; or a new array
    object was made around the argument's own memory (a buffer, an object with an
    array interface). *)
Inductive source := Itself | Copied | Viewed.
(** What the call does, and the elements of the argument afterwards.  A vector has no
    second dimension: PyArray_DIM(matrix, 1) reads past the array of dimensions (3166).
    [Other] stands for arguments numpy makes no array of; arrays of three or more
    dimensions are not modelled.  For sizes above 4 the array is copied first only if
    it is the argument itself (3163, 3197-3213). *)
Definition c_inverse_matrix (how : source) (matrix : arg) : outcome (option (nat -> nat -> R)) * arg :=
  match matrix with
  | Other => (Exc ValueError, matrix)
  | Vec _ => (Undef, matrix)
  | Mat rows cols m =>
    if (negb (rows =? cols) || (rows <? 1))%nat%bool then (Exc ValueError, matrix)
    else
      let give (r : option (nat -> nat -> R)) := match r with Some x => Ret (Some x) | None => Exc ValueError end in
      match rows with
      | 4%nat => (give (invert44 m), matrix)
      | 3%nat => (give (invert33 m), matrix)
      | 2%nat => (give (invert22 m), matrix)
      | 1%nat => (give (if iszero (m 0%nat 0%nat) then None else Some (table 1 [1 / m 0%nat 0%nat])), matrix)
      | size =>
        let '(ok, M, r) := invert_matrix size m in
        (if ok then Ret r else Exc ValueError,
         match how with Viewed => Mat rows cols M | _ => matrix end)
      end
  end.
