(** C159, C160: references, memory, lock and exceptions in the functions of the
    extension module electrode/transformations.c, on every path through them. *)
From Coq Require Import List String Arith Bool Lia.
From Verif Require Import ModelRefs SpecRefs ProofRefs ProofRefs2.
Import ListNotations.
Open Scope string_scope.
Open Scope list_scope.
Notation length := List.length.

(** ** C159: a call gives back what it took *)
Theorem C159_settled : forall f n h args orc r s, provided f n -> length args = n -> unnamed f args -> well_formed h -> held h args ->
  call f args orc h = Done r s -> settled h r (leave s).
Proof. exact settled_calls. Qed.
Theorem C159_returns : forall f n h args orc,
  provided_but ["quaternion_from_matrix"; "quaternion_slerp"; "vector_norm"] f n -> length args = n -> unnamed f args ->
  well_formed h -> held h args -> exists r s, call f args orc h = Done r s.
Proof. exact safe_calls. Qed.
(** Any sequence of calls, their results kept or dropped. *)
Theorem C159_history : forall es h rs h',
  (forall e, In e es -> provided (e_fun e) (length (e_args e)) /\ unnamed (e_fun e) (e_args e)) ->
  well_formed h -> held_throughout es h -> history es h = Some (rs, h') ->
  (forall x, h_count h' x = h_count h x + given_all rs x) /\ (forall b, h_blocks h' b = h_blocks h b) /\ well_formed h'.
Proof. exact settled_history. Qed.
Theorem C159_history_returns : forall es h,
  (forall e, In e es -> provided_but ["quaternion_from_matrix"; "quaternion_slerp"; "vector_norm"] (e_fun e) (length (e_args e)) /\
                        unnamed (e_fun e) (e_args e)) ->
  well_formed h -> held_throughout es h -> exists rs h', history es h = Some (rs, h').
Proof. exact safe_history. Qed.
(** Naming the axes leaves a reference behind, each time. *)
Theorem C159_refuted_axes : forall f args h orc r s, In (length args, f) euler_functions -> axes_by_name args -> well_formed h -> held h args ->
  call f args orc h = Done r s -> r <> NULL -> exists o, settled_but o h r (leave s).
Proof. exact text_leaks. Qed.
Theorem C159_refuted_growing : forall es h rs h',
  (forall e, In e es -> In (length (e_args e), e_fun e) euler_functions /\ axes_by_name (e_args e) /\ e_keep e = false) ->
  well_formed h -> held_throughout es h -> valued_throughout es h -> history es h = Some (rs, h') ->
  exists left, length left = length es /\ forall x, h_count h' x = h_count h x + count_occ Nat.eq_dec left x.
Proof. exact growing. Qed.
(** Crashes: a quaternion that cannot be converted (Py_DECREF(NULL)), a precise matrix
    without quaternion (PyEval_RestoreThread(NULL)), an iterator that could not be made. *)
Definition some_heap : heap := Heap (fun x => if (x <? 9)%nat then 1 else 0) (fun _ => 0) 9.
Definition choices (l : list nat) : nat -> nat := fun i => nth i l 0.
Lemma some_heap_ok : well_formed some_heap.
Proof.
  split; [|cbn; lia]. intros x H. cbn [h_next some_heap h_count h_blocks] in *.
  destruct (Nat.ltb_spec x 9); [lia|]. split; reflexivity.
Qed.
Ltac held_args := intros k o H; cbn [In] in H; repeat (destruct H as [H|H]; [first [discriminate H|injection H as <- <-; split; [discriminate|cbn; lia]]|]); destruct H.

Theorem C159_refuted_slerp : exists h args orc, well_formed h /\ held h args /\ length args = 5 /\ call quaternion_slerp args orc h = Crash.
Proof.
  exists some_heap, [Arg KOther 4; Arg KOther 5; Arg KOther 6; Missing; Missing], (choices []).
  split; [exact some_heap_ok|]. split; [held_args|]. split; [reflexivity|vm_compute; reflexivity].
Qed.
Theorem C159_refuted_from_matrix : exists h args orc, well_formed h /\ held h args /\ length args = 2 /\ call quaternion_from_matrix args orc h = Crash.
Proof.
  exists some_heap, [Arg KOther 4; Arg KOther 5], (choices [0; 2; 0; 1; 1; 0; 1]).
  split; [exact some_heap_ok|]. split; [held_args|]. split; [reflexivity|vm_compute; reflexivity].
Qed.
Theorem C159_refuted_iterators : exists h args orc, well_formed h /\ held h args /\ length args = 3 /\ call vector_norm args orc h = Crash.
Proof.
  exists some_heap, [Arg KOther 4; Arg KOther 5; Missing], (choices [0; 0; 0; 1; 1; 0; 1; 0; 1]).
  split; [exact some_heap_ok|]. split; [held_args|]. split; [reflexivity|vm_compute; reflexivity].
Qed.
Print Assumptions C159_settled.
Print Assumptions C159_returns.
Print Assumptions C159_history.
Print Assumptions C159_history_returns.
Print Assumptions C159_refuted_axes.
Print Assumptions C159_refuted_growing.
Print Assumptions C159_refuted_slerp.
Print Assumptions C159_refuted_from_matrix.
Print Assumptions C159_refuted_iterators.

Definition summary (o : outcome) : option (option obj * list nat) :=
  match o with
  | Crash => None
  | Done r s => Some (match r with NULL => None | Obj x _ => Some x end, map (count s) (seq 0 14))
  end.
(** q * q: the array is converted in place for both arguments and given back. *)
Example ex_159_multiply : held some_heap [Arg KOther 4; Arg KOther 4] /\
  summary (call quaternion_multiply [Arg KOther 4; Arg KOther 4] (choices [0; 1; 0; 1; 0; 1; 2]) some_heap) =
    Some (Some 9, [1; 1; 1; 1; 1; 1; 1; 1; 1; 1; 0; 0; 0; 0]).
Proof. split; [held_args|vm_compute; reflexivity]. Qed.
(** The second array has the wrong shape. *)
Example ex_159_shape : summary (call quaternion_multiply [Arg KOther 4; Arg KOther 5] (choices [0; 2; 0; 2; 1]) some_heap) =
    Some (None, [1; 1; 1; 1; 1; 1; 1; 1; 1; 0; 0; 0; 0; 0]).
Proof. vm_compute. reflexivity. Qed.
(** Named axes: object 10, the encoded name, stays. *)
Example ex_159_axes : held some_heap [Arg KOther 3; Arg KOther 4; Arg KOther 5; Arg KText 6] /\
  summary (call euler_matrix [Arg KOther 3; Arg KOther 4; Arg KOther 5; Arg KText 6] (choices [0; 0; 0; 0; 1; 0; 1; 0; 2]) some_heap) =
    Some (Some 9, [1; 1; 1; 1; 1; 1; 1; 1; 1; 1; 1; 0; 0; 0]).
Proof. split; [held_args|vm_compute; reflexivity]. Qed.
(** Three times the same, results dropped: three encoded names stay. *)
Example ex_159_growing :
  let e := Event euler_matrix [Arg KOther 3; Arg KOther 4; Arg KOther 5; Arg KText 6] (choices [0; 0; 0; 0; 1; 0; 1; 0; 2]) false in
  In (length (e_args e), e_fun e) euler_functions /\ axes_by_name (e_args e) /\ valued_throughout [e; e; e] some_heap /\
  match history [e; e; e] some_heap with
  | Some ([], h) => map (h_count h) (seq 0 16) = [1; 1; 1; 1; 1; 1; 1; 1; 1; 0; 1; 0; 1; 0; 1; 0]
  | _ => False
  end.
Proof.
  split; [left; reflexivity|]. split; [exists [Arg KOther 3; Arg KOther 4; Arg KOther 5], 6; reflexivity|].
  split; [vm_compute; repeat split; discriminate|vm_compute; reflexivity].
Qed.
(** Two calls: a kept pair of arrays, a dropped matrix. *)
Example ex_159_history :
  let es := [Event tridiagonalize_symmetric_44 [Arg KOther 4] (choices [0; 2; 0; 1; 1; 0; 1]) true;
             Event translation_matrix [Arg KOther 5] (choices [0; 1; 0; 1; 2]) false] in
  held_throughout es some_heap /\
  match history es some_heap with
  | Some ([Obj 12 [10; 11]], h) => map (h_count h) (seq 0 14) = [1; 1; 1; 1; 1; 1; 1; 1; 1; 0; 1; 1; 1; 0]
  | _ => False
  end.
Proof.
  split; [|vm_compute; reflexivity].
  assert (H4 : held some_heap [Arg KOther 4]) by held_args.
  split; [exact H4|]. cbv zeta. cbn [e_fun e_args e_orc e_keep].
  destruct (call tridiagonalize_symmetric_44 [Arg KOther 4] (choices [0; 2; 0; 1; 1; 0; 1]) some_heap) as [|r s] eqn:E; [exact I|].
  split; [|match goal with |- match ?c with _ => _ end => destruct c; exact I end].
  intros k o [H|[]]. injection H as <- <-. split; [discriminate|].
  assert (P : provided tridiagonalize_symmetric_44 1) by (exists "_tridiagonalize_symmetric_44"; cbn; tauto).
  assert (U : unnamed tridiagonalize_symmetric_44 [Arg KOther 4]) by (intros _ (b & o & B); destruct b as [|? [|? ?]]; discriminate B).
  destruct (C159_settled _ 1 some_heap [Arg KOther 4] _ r s P eq_refl U some_heap_ok H4 E) as (C & _).
  rewrite C. cbn. lia.
Qed.

(** ** C160: a value or an exception *)
Theorem C160_orderly : forall f n h args orc r s, provided f n -> length args = n -> well_formed h -> held h args ->
  call f args orc h = Done r s -> orderly r s.
Proof. intros f n h args orc r s P L W H E. exact (proj1 (orderly_calls f n h args orc r s P L W H E)). Qed.
Print Assumptions C160_orderly.

(** A truth value that raises: projection_matrix ends with NULL and the exception. *)
Example ex_160_pseudo :
  match call projection_matrix [Arg KOther 3; Arg KOther 4; Missing; Missing; Arg KOther 5] (choices [0; 1; 0; 1; 0; 1; 0; 1; 0]) some_heap with
  | Done NULL s => err s = true /\ gil s = true /\ map (count s) (seq 0 14) = [1; 1; 1; 1; 1; 1; 1; 1; 1; 0; 0; 0; 0; 0]
  | _ => False
  end.
Proof. vm_compute. repeat split. Qed.
