(** C136-C138: random numbers of the extension, vector_norm and unit_vector. *)
From Coq Require Import Lra Lia.
From Verif Require Import Base SpecTrans ModelCExt ModelNorm SpecNorm ProofNorm ProofNorm2.
Open Scope R_scope.
Notation length := List.length.

(** ** C136: random_vector of the extension *)
(** element i is k / 2^53 with 0 <= k < 2^53, from the words 2 i and 2 i + 1 alone,
    although the numbers are stored over the words *)
Theorem C136_numbers : forall bits w n, (forall i, word (w i)) -> exists l, c_random_vector bits (Some w) (Z.of_nat (S n)) = Ret l /\ length l = S n /\
  forall i, (i < S n)%nat -> let k := (w (2 * i)%nat / 32 * 2 ^ 26 + w (2 * i + 1)%nat / 64)%Z in
    nth i l 0 = IZR k / IZR (2 ^ 53) /\ (0 <= k < 2 ^ 53)%Z /\ 0 <= nth i l 0 < 1.
Proof. exact random_numbers. Qed.
(** each of the 2^53 numbers comes from 32 * 64 pairs of words: it is as likely as any other *)
Theorem C136_uniform : forall k, (0 <= k < 2 ^ 53)%Z -> forall u v, word u -> word v ->
  ((u / 32 * 2 ^ 26 + v / 64 = k)%Z <->
   (32 * (k / 2 ^ 26) <= u < 32 * (k / 2 ^ 26) + 32)%Z /\ (64 * (k mod 2 ^ 26) <= v < 64 * (k mod 2 ^ 26) + 64)%Z).
Proof. exact random_hits. Qed.
Theorem C136_errors : forall bits source n,
  ((n < 0)%Z -> c_random_vector bits source n = Exc memory_error) /\ c_random_vector bits source 0 = Ret [] /\
  ((0 < n)%Z -> c_random_vector bits None n = Exc ValueError).
Proof. exact random_errors. Qed.
Print Assumptions C136_numbers.
Print Assumptions C136_uniform.
Print Assumptions C136_errors.
(** the greatest words give the greatest number below 1 *)
Example C136_ex : exists l, c_random_vector (fun _ => (7, 8)%Z) (Some (fun _ => 2 ^ 32 - 1)%Z) 3 = Ret l /\ length l = 3%nat /\ nth 2 l 0 = IZR (2 ^ 53 - 1) / IZR (2 ^ 53).
Proof.
  destruct (C136_numbers (fun _ => (7, 8)%Z) (fun _ => 2 ^ 32 - 1)%Z 2) as [l [E [L V]]]; [intros i; split; reflexivity || discriminate|].
  exists l. split; [exact E|]. split; [exact L|]. destruct (V 2%nat ltac:(lia)) as [H _]. rewrite H. f_equal.
Qed.

(** ** C137: vector_norm *)
(** the extension: without axis the length of all elements; along an axis the lengths of
    the vectors along it, in a new array or in out *)
Theorem C137_extension_all : forall m fresh data,
  c_vector_norm m fresh data None None = Ret (m, Number (sqrt (total (shape data) (fun i => get m data i * get m data i)))).
Proof. exact c_norm_all. Qed.
Theorem C137_extension_new_partial : forall m fresh data axis a, axis_is axis (length (shape data)) a -> (0 < nth a (shape data) 0)%nat ->
  apart (new_array fresh (drop a (shape data))) data ->
  exists m' o, c_vector_norm m fresh data (Some axis) None = Ret (m', o) /\ number_or o (drop a (shape data)) (along (shape data) a (get m data)) /\
  (forall b, elsewhere (new_array fresh (drop a (shape data))) b -> m' b = m b).
Proof. exact c_norm_new. Qed.
Theorem C137_extension_out_partial : forall m fresh data axis a out, axis_is axis (length (shape data)) a -> (0 < nth a (shape data) 0)%nat ->
  shape out = drop a (shape data) -> distinct out -> apart out data ->
  exists m', c_vector_norm m fresh data (Some axis) (Some out) = Ret (m', Nothing) /\
  (forall i, valid (shape out) i -> get m' out i = along (shape data) a (get m data) i) /\ forall b, elsewhere out b -> m' b = m b.
Proof. exact c_norm_out. Qed.
Theorem C137_extension_axis : forall m fresh data axis out, no_axis axis (length (shape data)) -> c_vector_norm m fresh data (Some axis) out = Exc ValueError.
Proof. exact c_norm_axis. Qed.
Theorem C137_extension_errors : forall m fresh data out, c_vector_norm m fresh data None (Some out) = Exc ValueError /\
  forall axis, length (shape data) <> (length (shape out) + 1)%nat -> c_vector_norm m fresh data (Some axis) (Some out) = Exc ValueError.
Proof. exact c_norm_wrong. Qed.
(** Python: the same, and out may overlap data *)
Theorem C137_python_all : forall m data, py_vector_norm m data None None = let r := sqrt (total (shape data) (fun i => get m data i * get m data i)) in
  Ok (m, if (length (shape data) =? 1)%nat then Number r else Array [1%nat] (fun _ => r)).
Proof. exact py_norm_all. Qed.
Theorem C137_python_new : forall m data axis a, axis_is axis (length (shape data)) a ->
  exists o, py_vector_norm m data (Some axis) None = Ok (m, o) /\ number_or o (drop a (shape data)) (along (shape data) a (get m data)).
Proof. exact py_norm_new. Qed.
Theorem C137_python_out : forall m data axis a out, axis_is axis (length (shape data)) a -> shape out = drop a (shape data) -> distinct out ->
  exists m', py_vector_norm m data (Some axis) (Some out) = Ok (m', Nothing) /\
  (forall i, valid (shape out) i -> get m' out i = along (shape data) a (get m data) i) /\ forall b, elsewhere out b -> m' b = m b.
Proof. exact py_norm_out. Qed.
Theorem C137_python_shape : forall m data axis a out, axis_is axis (length (shape data)) a -> shape out <> drop a (shape data) ->
  py_vector_norm m data (Some axis) (Some out) = Raise ValueError.
Proof. exact py_norm_shape. Qed.
Theorem C137_python_axis : forall m data axis out, no_axis axis (length (shape data)) -> (length (shape data) <> 1%nat \/ out <> None) ->
  py_vector_norm m data (Some axis) out = Raise ValueError.
Proof. exact py_norm_axis. Qed.
(** an out of one element for two lengths: the extension writes past its end *)
Theorem C137_refuted_shape : exists data out, shape data = [2; 2]%nat /\ shape out = [1%nat] /\ forall m fresh, c_vector_norm m fresh data (Some 1%Z) (Some out) = Undef.
Proof. exists (grid 2 2 0), (flat 1 10). split; [reflexivity|]. split; [reflexivity|]. exact c_norm_short. Qed.
(** no elements along the axis: the extension returns what was in the memory *)
Theorem C137_refuted_empty : exists data, shape data = [3; 0]%nat /\ forall m fresh,
  c_vector_norm m fresh data (Some 1%Z) None = Ret (m, Array [3%nat] (get m (new_array fresh [3%nat]))).
Proof. exists (grid 3 0 0). split; [reflexivity|]. exact c_norm_empty. Qed.
(** out inside data: wrong lengths *)
Theorem C137_refuted_overlap : exists m data out m', shape out = drop 0 (shape data) /\ distinct out /\
  c_vector_norm m 100 data (Some 0%Z) (Some out) = Ret (m', Nothing) /\ get m' out [1%nat] <> along (shape data) 0 (get m data) [1%nat].
Proof. exact c_norm_overlap. Qed.
(** without axis Python returns an array, the extension a number, if data is not a vector *)
Theorem C137_refuted_type : forall m fresh data, length (shape data) <> 1%nat -> exists r, c_vector_norm m fresh data None None = Ret (m, Number r) /\
  py_vector_norm m data None None = Ok (m, Array [1%nat] (fun _ => r)).
Proof. exact norm_types. Qed.
(** Python ignores the axis of a vector, even one that does not exist *)
Theorem C137_refuted_axis : forall m data axis, length (shape data) = 1%nat -> exists r, py_vector_norm m data (Some axis) None = Ok (m, Number r).
Proof. exact py_norm_any_axis. Qed.
Print Assumptions C137_extension_all.
Print Assumptions C137_extension_new_partial.
Print Assumptions C137_extension_out_partial.
Print Assumptions C137_extension_axis.
Print Assumptions C137_extension_errors.
Print Assumptions C137_python_all.
Print Assumptions C137_python_axis.
Print Assumptions C137_python_new.
Print Assumptions C137_python_out.
Print Assumptions C137_python_shape.
Print Assumptions C137_refuted_shape.
Print Assumptions C137_refuted_empty.
Print Assumptions C137_refuted_overlap.
Print Assumptions C137_refuted_type.
Print Assumptions C137_refuted_axis.
(** a 2 x 3 array at 0, the lengths of its rows at 6 *)
Example C137_ex : exists m', c_vector_norm (fun b => IZR b) 100 (grid 2 3 0) (Some (-1)%Z) (Some (flat 2 6)) = Ret (m', Nothing) /\
  get m' (flat 2 6) [1%nat] = sqrt (3 * 3 + 4 * 4 + 5 * 5) /\ m' 5%Z = 5.
Proof.
  destruct (C137_extension_out_partial (fun b => IZR b) 100%Z (grid 2 3 0) (-1)%Z 1%nat (flat 2 6)) as [m' [E [V K]]].
  - split; [cbn; lia|]. right. reflexivity.
  - cbn. lia.
  - reflexivity.
  - apply flat_distinct.
  - apply grid_apart.
  - exists m'. split; [exact E|]. split.
    + rewrite V by (repeat constructor). unfold along. f_equal. unfold get, addr. cbn. ring.
    + rewrite K; [reflexivity|]. intros i Hi. inversion Hi as [|x d t s Hx Ht]; subst. unfold addr. cbn [flat start strides offset]. lia.
Qed.

(** ** C138: unit_vector *)
(** the extension, in a new array, or in out: another array, or data itself *)
Theorem C138_extension_partial : forall m fresh data axis a oout, axis_means axis (length (shape data)) a ->
  let out := match oout with None => new_array fresh (shape data) | Some out => out end in
  shape out = shape data -> distinct out -> aligned out data ->
  exists m' o, c_unit_vector m fresh data axis oout = Ret (m', o) /\ unit_along m data a (get m' out) /\
  o = match oout, shape data with Some _, _ => Nothing | None, [] => Number (get m' out []) | None, _ => Array (shape data) (get m' out) end /\
  forall b, elsewhere out b -> m' b = m b.
Proof. exact c_unit_ok. Qed.
Theorem C138_extension_shape : forall m fresh data axis out, shape out <> shape data -> c_unit_vector m fresh data axis (Some out) = Exc ValueError.
Proof. exact c_unit_shape. Qed.
Theorem C138_extension_axis : forall m fresh data axis oout, no_axis axis (length (shape data)) -> c_unit_vector m fresh data (Some axis) oout = Exc ValueError.
Proof. exact c_unit_axis. Qed.
(** Python *)
Theorem C138_python_new : forall m data axis a, axis_means axis (length (shape data)) a -> (1 <= length (shape data))%nat ->
  exists y, py_unit_vector m data axis None false = (m, Ok (Array (shape data) y)) /\ unit_along m data a y.
Proof. exact py_unit_new. Qed.
Theorem C138_python_out_partial : forall m data axis a out is_data, axis_means axis (length (shape data)) a ->
  (2 <= length (shape data))%nat \/ (axis = None /\ (1 <= length (shape data))%nat) ->
  shape out = shape data -> distinct out -> (is_data = true -> out = data) ->
  exists m', py_unit_vector m data axis (Some out) is_data = (m', Ok Nothing) /\ unit_along m data a (get m' out) /\ forall b, elsewhere out b -> m' b = m b.
Proof. exact py_unit_out. Qed.
Theorem C138_python_axis : forall m data axis, no_axis axis (length (shape data)) -> length (shape data) <> 1%nat ->
  py_unit_vector m data (Some axis) None false = (m, Raise ValueError).
Proof. exact py_unit_axis. Qed.
(** data does not fit out, not even repeated along dimensions of size 1 *)
Theorem C138_python_shape : forall m data axis out, length (shape out) = length (shape data) -> ~ Forall2 (fun d e => d = 1%nat \/ d = e) (shape data) (shape out) ->
  py_unit_vector m data axis (Some out) false = (m, Raise ValueError).
Proof. exact py_unit_shape. Qed.
(** data with more dimensions than out: the first ones must have length 1 *)
Theorem C138_python_long : forall m data axis out front rest, shape data = front ++ rest -> length rest = length (shape out) ->
  ~ (Forall (fun d => d = 1%nat) front /\ Forall2 (fun d e => d = 1%nat \/ d = e) rest (shape out)) ->
  py_unit_vector m data axis (Some out) false = (m, Raise ValueError).
Proof. exact py_unit_long. Qed.
Print Assumptions C138_python_long.
Example ex_138_long : ~ (Forall (fun d => d = 1%nat) [2%nat] /\ Forall2 (fun d e => d = 1%nat \/ d = e) [3%nat] [3%nat]).
Proof. intros [H _]. inversion H. lia. Qed.
(** a vector, its axis and out: Python raises ValueError, and has copied data to out *)
Theorem C138_refuted_vector : forall m data axis out n, shape data = [n] -> shape out = [n] -> distinct out -> axis_is axis 1 0 -> exists m',
  py_unit_vector m data (Some axis) (Some out) false = (m', Raise ValueError) /\ forall i, valid (shape out) i -> get m' out i = get m data i.
Proof. exact py_unit_line. Qed.
(** unit_vector(data, out=data[::-1]) of the extension *)
Theorem C138_refuted_overlap : exists m data out m', shape out = shape data /\ distinct out /\
  c_unit_vector m 100 data None (Some out) = Ret (m', Nothing) /\ ~ unit_along m data None (get m' out).
Proof. exact c_unit_overlap. Qed.
Print Assumptions C138_extension_partial.
Print Assumptions C138_extension_shape.
Print Assumptions C138_extension_axis.
Print Assumptions C138_python_axis.
Print Assumptions C138_python_shape.
Print Assumptions C138_python_new.
Print Assumptions C138_python_out_partial.
Print Assumptions C138_refuted_vector.
Print Assumptions C138_refuted_overlap.
(** in place: 3, 4 becomes 3/5, 4/5 *)
Example C138_ex : exists m' o, c_unit_vector (sample 3 4) 100 (flat 2 0) (Some 0%Z) (Some (flat 2 0)) = Ret (m', o) /\ m' 1%Z = 4 / 5.
Proof.
  destruct (C138_extension_partial (sample 3 4) 100%Z (flat 2 0) (Some 0%Z) (Some 0%nat) (Some (flat 2 0))) as [m' [o [E [U _]]]].
  - split; [cbn; lia|]. left. reflexivity.
  - reflexivity.
  - apply flat_distinct.
  - intros i j. apply flat_distinct.
  - exists m', o. split; [exact E|].
    assert (L : across (shape (flat 2 0)) 0 (get (sample 3 4) (flat 2 0)) [1%nat] = 5).
    { unfold across, get, addr, sample. cbn -[sqrt Rplus Rmult]. replace (0 + 3 * 3 + 4 * 4) with (5 * 5) by ring. apply sqrt_square. lra. }
    assert (V : valid (shape (flat 2 0)) [1%nat]) by repeat constructor. pose proof (U [1%nat] V) as H. cbv zeta iota in H. rewrite L in H. exact (H ltac:(lra)).
Qed.
