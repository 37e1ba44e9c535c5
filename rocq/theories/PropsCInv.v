(** C128-C130: inverse_matrix of the extension module electrode/transformations.c. *)
From Coq Require Import Lra Lia.
From Verif Require Import Base ModelTrans SpecTrans ModelCExt ModelCInv SpecCInv ProofCInv ProofCInv2 ProofCInv3.
Open Scope R_scope.
Notation length := List.length.

(** ** C128: matrices of 1 to 4 rows, by cofactors *)
Theorem C128_inverse : forall how n m, (1 <= n <= 4)%nat -> / 2 ^ 50 <= Rabs (det n m) ->
  exists x, c_inverse_matrix how (Mat n n m) = (Ret (Some x), Mat n n m) /\ inverse n m x.
Proof. intros how n m H. exact (proj1 (c_inverse_small how n m H)). Qed.
Theorem C128_refuses : forall how n m, (1 <= n <= 4)%nat -> Rabs (det n m) < / 2 ^ 50 ->
  c_inverse_matrix how (Mat n n m) = (Exc ValueError, Mat n n m).
Proof. intros how n m H. exact (proj2 (c_inverse_small how n m H)). Qed.
(** 2**-30 times the identity has an inverse *)
Theorem C128_refuted_tiny : exists m, (exists x, inverse 2 m x) /\ forall how, fst (c_inverse_matrix how (Mat 2 2 m)) = Exc ValueError.
Proof.
  exists (tiny (/ 2 ^ 30)). split; [|exact tiny_small]. exists (tiny (/ / 2 ^ 30)). apply tiny_inverse.
  apply Rinv_neq_0_compat. apply pow_nonzero. lra.
Qed.
Print Assumptions C128_inverse.
Print Assumptions C128_refuses.
Print Assumptions C128_refuted_tiny.
Example C128_ex : exists x, c_inverse_matrix Itself (Mat 4 4 (table 4 [1; 2; 3; 4; 0; 1; 5; 6; 0; 0; 1; 7; 8; 0; 0; 1])) =
  (Ret (Some x), Mat 4 4 (table 4 [1; 2; 3; 4; 0; 1; 5; 6; 0; 0; 1; 7; 8; 0; 0; 1])) /\
  inverse 4 (table 4 [1; 2; 3; 4; 0; 1; 5; 6; 0; 0; 1; 7; 8; 0; 0; 1]) x.
Proof.
  apply C128_inverse; [lia|]. rewrite det4. unfold d3, table. cbn [nth Nat.mul Nat.add].
  assert (H : eps <= 1) by (unfold eps; rewrite <- Rinv_1; apply Rinv_le_contravar; [lra|apply pow_R1_Rle; lra]).
  eapply Rle_trans; [exact H|]. unfold Rabs. destruct (Rcase_abs _) as [L|L]; lra.
Qed.

(** ** C129: larger matrices, by LU factorisation with pivoting *)
(** a returned matrix is the inverse; infinities and nan are returned only for singular
    matrices; an exception means that a singular matrix is within 1e-14 *)
Theorem C129_result : forall how n m, (5 <= n)%nat ->
  match fst (c_inverse_matrix how (Mat n n m)) with
  | Ret (Some x) => inverse n m x
  | Ret None => singular n m
  | Exc e => e = ValueError /\ exists B, within n (/ 10 ^ 14) m B /\ singular n B
  | Undef => False
  end.
Proof. exact c_inverse_large. Qed.
Theorem C129_found : forall how n m, (5 <= n)%nat -> (forall B, within n (/ 10 ^ 14) m B -> ~ singular n B) ->
  exists x, fst (c_inverse_matrix how (Mat n n m)) = Ret (Some x) /\ inverse n m x.
Proof. exact c_inverse_found. Qed.
(** a singular matrix for which no exception is raised; an invertible one that is refused *)
Theorem C129_refuted_singular : exists m, singular 5 m /\ forall how, fst (c_inverse_matrix how (Mat 5 5 m)) = Ret None.
Proof. exists last_zero. split; [exact last_zero_singular|exact last_zero_result]. Qed.
Theorem C129_refuted_tiny : exists m, (exists x, inverse 5 m x) /\ forall how, fst (c_inverse_matrix how (Mat 5 5 m)) = Exc ValueError.
Proof.
  exists (tiny (/ 10 ^ 15)). split; [|exact tiny_large]. exists (tiny (/ / 10 ^ 15)). apply tiny_inverse.
  apply Rinv_neq_0_compat. apply pow_nonzero. lra.
Qed.
Print Assumptions C129_result.
Print Assumptions C129_found.
Print Assumptions C129_refuted_singular.
Print Assumptions C129_refuted_tiny.
(** the identity is not near a singular matrix *)
Example C129_ex : exists x, fst (c_inverse_matrix Copied (Mat 6 6 (tiny 1))) = Ret (Some x) /\ inverse 6 (tiny 1) x.
Proof. apply C129_found; [lia|]. intros B. apply identity_far. cbn [INR]. lra. Qed.

(** ** C130: the argument *)
Theorem C130_argument : forall how a, how <> Viewed -> snd (c_inverse_matrix how a) = a.
Proof. exact c_inverse_kept. Qed.
Theorem C130_shape : forall how r c m, r <> c \/ (r < 1)%nat -> c_inverse_matrix how (Mat r c m) = (Exc ValueError, Mat r c m).
Proof. exact c_inverse_refuses. Qed.
Theorem C130_error : forall how r c m e, fst (c_inverse_matrix how (Mat r c m)) = Exc e -> e = ValueError.
Proof. exact c_inverse_orderly. Qed.
(** the matrix behind a memoryview is overwritten *)
Theorem C130_refuted_view : exists m m', snd (c_inverse_matrix Viewed (Mat 5 5 m)) = Mat 5 5 m' /\ m' 1%nat 0%nat <> m 1%nat 0%nat.
Proof.
  exists two_one. destruct two_one_view as [m' [H1 H2]]. exists m'. split; [exact H1|]. rewrite H2. unfold two_one. lra.
Qed.
(** a vector makes the function read past the end of the dimensions *)
Theorem C130_refuted_vector : forall how l, fst (c_inverse_matrix how (Vec l)) = Undef.
Proof. reflexivity. Qed.
Print Assumptions C130_argument.
Print Assumptions C130_shape.
Print Assumptions C130_error.
Print Assumptions C130_refuted_view.
Print Assumptions C130_refuted_vector.
Example C130_ex : snd (c_inverse_matrix Itself (Mat 5 5 two_one)) = Mat 5 5 two_one.
Proof. apply C130_argument. discriminate. Qed.
