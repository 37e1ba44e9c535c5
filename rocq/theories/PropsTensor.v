(** Property theorems C12-C17. *)
From Coq Require Import Permutation Sorted.
From Verif Require Import Base ModelUtils SpecTensor ProofTensor.
Open Scope R_scope.

(** C12: the expanded tensor is symmetric, traceless and extends its input. *)
Theorem C12_expand_symmetric_traceless :
  forall n c, (n <= 5)%nat -> length c = (2 * n + 1)%nat ->
  exists t T, expand_tensor c = Ok t /\ holds n t T /\
    symmetric n T /\ traceless n T /\
    forall i s idx, nth_error (doc_names n) i = Some s -> spells s idx ->
      nth_error c i = Some (T idx).
Proof. exact expand_spec'. Qed.
Print Assumptions C12_expand_symmetric_traceless.

(** the Hessian of x*x - z*z + 3*x*y : zz comes out as -xx-yy *)
Example C12_example :
  expand_tensor [2; 3; 0; 0; 0] =
  Ok [2; 3; 0; 3; 0; 0; 0; 0; - 2 - 0].
Proof. reflexivity. Qed.

(** C13 *)
Theorem C13_select_of_expand :
  forall n c, (n <= 5)%nat -> length c = (2 * n + 1)%nat ->
  exists t, expand_tensor c = Ok t /\ select_tensor n t = Ok c.
Proof. exact select_expand. Qed.
Theorem C13_expand_of_select :
  forall n t T, (n <= 5)%nat -> holds n t T -> symmetric n T -> traceless n T ->
  exists c, select_tensor n t = Ok c /\ expand_tensor c = Ok t.
Proof. exact expand_select. Qed.
Theorem C13_completion_unique :
  forall n c T, (n <= 5)%nat -> length c = (2 * n + 1)%nat ->
  symmetric n T -> traceless n T ->
  (forall i s idx, nth_error (doc_names n) i = Some s -> spells s idx ->
      nth_error c i = Some (T idx)) ->
  exists t, expand_tensor c = Ok t /\ holds n t T.
Proof. exact expand_unique'. Qed.
(** select reads the named entries, for every tensor *)
Theorem C13_select_entries :
  forall n t T, (n <= 5)%nat -> holds n t T ->
  exists c, select_tensor n t = Ok c /\ length c = (2 * n + 1)%nat /\
    forall i s idx, nth_error (doc_names n) i = Some s -> spells s idx ->
      nth_error c i = Some (T idx).
Proof. exact select_spec. Qed.
Print Assumptions C13_select_of_expand.
Print Assumptions C13_expand_of_select.
Print Assumptions C13_completion_unique.
Print Assumptions C13_select_entries.

(** a symmetric traceless order-2 tensor held by a flat array *)
Definition ex_T : tens := fun idx =>
  match idx with
  | [0; 0]%nat => 2 | [2; 2]%nat => -2 | [0; 1]%nat | [1; 0]%nat => 3 | _ => 0 end.
Example C13_example_holds : holds 2 [2; 3; 0; 3; 0; 0; 0; 0; -2] ex_T.
Proof.
  split; [reflexivity|]. intros idx H. apply product3_in in H.
  repeat (destruct H as [<-|H]; [reflexivity|]). destruct H.
Qed.
Example C13_example_symmetric : symmetric 2 ex_T.
Proof.
  intros i j [Hl _] HP.
  destruct i as [|a [|b [|]]]; try discriminate.
  apply Permutation_length_2_inv in HP. destruct HP as [->| ->]; [reflexivity|].
  destruct a as [|[|[|a]]]; destruct b as [|[|[|b]]]; reflexivity.
Qed.
Example C13_example_traceless : traceless 2 ex_T.
Proof.
  intros [|] [|] [|] _ _ _ H; try (cbn in H; lia). cbn. lra.
Qed.

(** C14 *)
Theorem C14_name_deriv_bijection :
  (forall n d i, name_to_deriv n = Ok (d, i) <-> deriv_to_name d i = Ok n) /\
  (forall d i s, deriv_to_name d i = Ok s <-> nth_error (doc_names d) i = Some s).
Proof. exact (conj name_deriv_inverse deriv_to_name_doc). Qed.
Theorem C14_name_to_idx_spells :
  forall s l, name_to_idx s = Ok l <-> spells s l.
Proof. intros s l. symmetry. apply spells_name_to_idx. Qed.
Theorem C14_idx_to_name_sorts :
  forall s idx, spells s idx ->
  exists s' idx', idx_to_name idx = Ok s' /\ spells s' idx' /\
    Permutation idx idx' /\ StronglySorted le idx'.
Proof. exact idx_to_name_spec. Qed.
Theorem C14_nidx_rowmajor :
  (forall idx, idx_to_nidx idx = rowmajor idx) /\
  (forall n idx, idx_of_order n idx -> (idx_to_nidx idx < 3 ^ n)%nat) /\
  (forall n i j, idx_of_order n i -> idx_of_order n j ->
     idx_to_nidx i = idx_to_nidx j -> i = j).
Proof.
  split; [exact idx_to_nidx_rowmajor|]. split.
  - intros n idx [H1 H2]. rewrite idx_to_nidx_rowmajor, <- H1. now apply rowmajor_lt.
  - intros n i j [H1 H2] [H3 H4]. rewrite !idx_to_nidx_rowmajor.
    apply rowmajor_inj; auto. congruence.
Qed.
Theorem C14_reduced_idx :
  forall d idx c, (length idx <= 5)%nat -> spells d idx ->
  length c = (2 * length idx + 1)%nat ->
  exists e t v, deriv_to_reduced_idx d = Ok e /\ expand_tensor c = Ok t /\
    nth_error t (rowmajor idx) = Some v /\
    match e with
    | Sel i => nth_error c i = Some v
    | Lap a b => exists x y,
        nth_error c a = Some x /\ nth_error c b = Some y /\ v = - x - y
    end.
Proof. exact reduced_idx_value'. Qed.
Theorem C14_reduced_idx_out_of_range :
  forall d idx, (5 < length idx)%nat -> spells d idx ->
  deriv_to_reduced_idx d = Raise IndexError.
Proof. exact reduced_idx_too_long. Qed.
(** anything else is refused, with the exception of the lookup that fails *)
Theorem C14_unknown :
  (forall n, (forall d, ~ In n (doc_names d)) -> name_to_deriv n = Raise KeyError) /\
  (forall d i, nth_error (doc_names d) i = None -> deriv_to_name d i = Raise KeyError) /\
  (forall s, (forall l, ~ spells s l) -> name_to_idx s = Raise ValueError) /\
  (forall idx, ~ axes_ok idx -> idx_to_name idx = Raise IndexError).
Proof. exact unknown_names. Qed.
Print Assumptions C14_unknown.
Example C14_unknown_met : ~ axes_ok [0; 3]%nat /\ nth_error (doc_names 2) 5 = None /\ name_to_deriv "zz" = Raise KeyError.
Proof.
  split; [|split; reflexivity]. intros H. inversion H as [|? ? _ H']. inversion H'. lia.
Qed.
(** the assertions made at import time hold *)
Theorem C14_import_succeeds : import_asserts = true.
Proof. exact import_ok. Qed.
Print Assumptions C14_import_succeeds.
Print Assumptions C14_name_deriv_bijection.
Print Assumptions C14_name_to_idx_spells.
Print Assumptions C14_idx_to_name_sorts.
Print Assumptions C14_nidx_rowmajor.
Print Assumptions C14_reduced_idx.
Print Assumptions C14_reduced_idx_out_of_range.

Example C14_example_spells : spells "zzx" [2; 2; 0]%nat.
Proof. exact (spells_z _ _ (spells_z _ _ (spells_x _ _ spells_nil))). Qed.
Example C14_example_reduced :
  deriv_to_reduced_idx "zzx" = Ok (Sel 4) /\ deriv_to_reduced_idx "zyzz" = Ok (Sel 8)
  /\ deriv_to_reduced_idx "xxx" = Ok (Lap 3 4).
Proof. now vm_compute. Qed.

(** C15, for tuples of every length *)
Theorem C15_find_laplace_sound :
  forall n (T : tens) c a b,
  symmetric n T -> traceless n T -> idx_of_order n c -> In (a, b) (find_laplace c) ->
  idx_of_order n a /\ idx_of_order n b /\ T a + T b + T c = 0.
Proof. exact find_laplace_sum. Qed.
Theorem C15_find_laplace_complete :
  (forall c i, axes_ok c -> (i < 3)%nat -> (2 <= count_occ Nat.eq_dec c i)%nat ->
   exists a b j k keep, In (a, b) (find_laplace c) /\
    Permutation [i; j; k] [0; 1; 2]%nat /\ (j < k)%nat /\
    Permutation c (i :: i :: keep) /\
    Permutation a (j :: j :: keep) /\ Permutation b (k :: k :: keep)) /\
  (forall c, length (find_laplace c) =
    length (filter (fun i => 2 <=? count_occ Nat.eq_dec c i)%nat [0; 1; 2]%nat)).
Proof.
  split; [|exact find_laplace_length].
  intros c i Hc Hi H2.
  destruct (find_laplace_complete c i Hc Hi H2) as (a & b & keep & H).
  exists a, b, (fst (others i)), (snd (others i)), keep.
  destruct H as (H & P1 & P2 & P3). repeat (split; [assumption|]).
  destruct i as [|[|[|i]]]; [| | |lia]; cbn [others fst snd]; (split; [|split; [lia|auto]]).
  - reflexivity.
  - apply perm_swap.
  - rewrite (Permutation_cons_append [0; 1]%nat 2%nat). reflexivity.
Qed.
Print Assumptions C15_find_laplace_sound.
Print Assumptions C15_find_laplace_complete.
Example C15_example :
  find_laplace [2; 0; 2; 0]%nat =
  [([1; 1; 2; 2]%nat, [2; 2; 2; 2]%nat); ([0; 0; 0; 0]%nat, [0; 0; 1; 1]%nat)].
Proof. reflexivity. Qed.

(** C16 *)
Theorem C16_construct_derivative :
  forall d i, (1 <= d <= 5)%nat -> (i < 2 * d + 1)%nat ->
  exists j k s s' idx idx', construct_derivative d i = Ok ((d - 1, j), k)%nat /\
    nth_error (doc_names d) i = Some s /\ nth_error (doc_names (d - 1)) j = Some s' /\
    spells s idx /\ spells s' idx' /\ (k < 3)%nat /\
    Permutation idx (k :: idx').
Proof. exact construct_spec'. Qed.
Theorem C16_construct_derivative_else_keyerror :
  forall d i, (d = 0 \/ 5 < d \/ 2 * d + 1 <= i)%nat ->
  construct_derivative d i = Raise KeyError.
Proof. exact construct_fail. Qed.
Print Assumptions C16_construct_derivative.
Print Assumptions C16_construct_derivative_else_keyerror.
Example C16_example : construct_derivative 3 6 = Ok ((2, 4), 0)%nat.
Proof. reflexivity. Qed.

(** C17, tensors of every order *)
Theorem C17_rotate_contracts :
  forall n T r idx, length idx = n -> rotate_tensor n T r idx = rot r T idx.
Proof. exact rotate_rot. Qed.
Theorem C17_rotate_compose :
  forall n T r s idx, length idx = n ->
  rotate_tensor n (rotate_tensor n T r) s idx = rotate_tensor n T (mmul r s) idx.
Proof. exact rotate_compose. Qed.
Theorem C17_rotate_identity :
  forall n T idx, idx_of_order n idx -> rotate_tensor n T delta3 idx = T idx.
Proof. exact rotate_identity. Qed.
Theorem C17_rotate_back :
  forall n T r idx, orthogonal r -> idx_of_order n idx ->
  rotate_tensor n (rotate_tensor n T r) (transpose r) idx = T idx.
Proof. exact rotate_inverse. Qed.
Theorem C17_rotate_keeps_symmetric_traceless :
  forall n T r, symmetric n T ->
  symmetric n (rotate_tensor n T r) /\
  (orthogonal r -> traceless n T -> traceless n (rotate_tensor n T r)).
Proof.
  intros n T r Hs. split; [now apply rotate_symmetric|].
  intros Ho Ht. now apply rotate_traceless.
Qed.
Print Assumptions C17_rotate_contracts.
Print Assumptions C17_rotate_compose.
Print Assumptions C17_rotate_identity.
Print Assumptions C17_rotate_back.
Print Assumptions C17_rotate_keeps_symmetric_traceless.

(** a 3-4-5 rotation about z meets the hypotheses *)
Definition ex_r : mat := fun a b =>
  match a, b with
  | 0%nat, 0%nat => 3/5 | 0%nat, 1%nat => 4/5
  | 1%nat, 0%nat => -4/5 | 1%nat, 1%nat => 3/5
  | 2%nat, 2%nat => 1 | _, _ => 0 end.
Example C17_example_orthogonal : orthogonal ex_r.
Proof.
  intros a b Ha Hb.
  destruct a as [|[|[|a]]]; [| | |lia]; destruct b as [|[|[|b]]]; try lia;
    cbv [mmul transpose ex_r delta3 Nat.eqb]; lra.
Qed.
Example C17_example_value : rotate_tensor 2 ex_T ex_r [0; 1]%nat = 3 * (9/25) - 3 * (16/25) + 2 * (12/25).
Proof. cbv [rotate_tensor seq fold_left swapaxes dot_last sum3 set_nth nth ex_T ex_r Nat.sub]. lra. Qed.
