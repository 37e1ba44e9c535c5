(** C50, C51, C53 *)
From Coq Require Import Permutation.
From Verif Require Import Base ModelUtils ModelField ModelSearch ModelDyn SpecField SpecDyn ProofSearch ProofDyn.
From Coquelicot Require Import Coquelicot.
Import ListNotations.
Open Scope R_scope.
Notation length := List.length.

(** C50 *)
Theorem C50_eigenpairs :
  forall r n a mu b,
  eigenpair ((2 * r + 1) * 2 * n) (floquet r n a) mu b <->
  hill_recurrence r n a mu (fun l i => b (position n l 0 i)) /\
  derivative_coefficients r n mu (fun l i => b (position n l 0 i)) (fun l i => b (position n l 1 i)).
Proof. exact floquet_iff. Qed.
(** the documentation orders the components [-r...r]; they are [r...-r] *)
Theorem C50_refuted_documented_order :
  exists r n a mu b,
  eigenpair ((2 * r + 1) * 2 * n) (floquet r n a) mu b /\
  ~ hill_recurrence_documented r n a mu (fun l i => b (position n l 0 i)).
Proof. exact documented_order_refuted. Qed.
Print Assumptions C50_eigenpairs.
Print Assumptions C50_refuted_documented_order.
(** x'' + (5 - 4 cos 2t) x = 0 cut off at r = 0 : x = exp(i sqrt(5) t) *)
Example C50_example :
  let b : nat -> C := fun k => if (k =? 0)%nat then RtoC 1 else (0, sqrt 5) in
  eigenpair ((2 * 0 + 1) * 2 * 1) (floquet 0 1 [fun _ _ => 5; fun _ _ => - 2]) (0, sqrt 5) b.
Proof.
  apply C50_eigenpairs. assert (Q : sqrt 5 * sqrt 5 = 5) by (apply sqrt_sqrt; lra). split; intros l i Hl Hi;
    (replace l with 0%nat by lia); (replace i with 0%nat by lia); cbn; apply injective_projections; cbn; nra.
Qed.

(** C51 *)
Theorem C51_equation_of_motion :
  forall m q l o s p (x : nat -> R -> R), (forall e, In e s -> well_formed (egeom e)) ->
  0 < m -> 0 < q -> 0 < l -> 0 < o ->
  solves 3 (fun t i j => - (q / (m * l ^ 2)) * (tensor_entry s TDc 2 [i; j] p + tensor_entry s TRf 2 [i; j] p * cos (o * t))) x <->
  solves 3 (fun tau i j => - (16 * rf_scale m q l o ^ 2 * tensor_entry s TDc 2 [i; j] p
                             + 2 * (8 * rf_scale m q l o ^ 2 * tensor_entry s TRf 2 [i; j] p) * cos (2 * tau)))
    (fun i tau => x i (2 / o * tau)).
Proof. exact mathieu_equation_system. Qed.
(** the exponents belong to t of x'' + (a + 2 q cos 2t) x = 0 divided by two *)
Theorem C51_exponents :
  forall eig argsort s x scale r sorted mu b, (forall e, In e s -> well_formed (egeom e)) ->
  (forall N m mu b, In (mu, b) (eig N m) -> eigenpair N m mu b) ->
  (forall ks, sorting_of (argsort ks) ks) ->
  In (mu, b) (sys_mathieu eig argsort s x scale r sorted) ->
  hill_recurrence r 3 [fun i j => 16 * scale ^ 2 * tensor_entry s TDc 2 [i; j] x; fun i j => 8 * scale ^ 2 * tensor_entry s TRf 2 [i; j] x]
    (Cmult (RtoC 2) mu) (fun l i => b (position 3 l 0 i)).
Proof. exact sys_mathieu_exponents. Qed.
Theorem C51_sorted_ascending :
  forall eig argsort s x scale r,
  (forall ks, sorting_of (argsort ks) ks) ->
  let l := sys_mathieu eig argsort s x scale r true in
  forall i j, (i < j)%nat -> (j < length l)%nat ->
  Im (fst (nth i l (RtoC 0, fun _ => RtoC 0))) <= Im (fst (nth j l (RtoC 0, fun _ => RtoC 0))).
Proof. exact sys_mathieu_sorted. Qed.
Theorem C51_sorted_keeps_stable_half :
  forall eig argsort s x scale r mu' b,
  (forall ks, sorting_of (argsort ks) ks) ->
  (In (mu', b) (sys_mathieu eig argsort s x scale r true) <->
   exists mu, In (mu, b) (sys_mathieu eig argsort s x scale r false) /\ 0 <= Im mu /\ mu' = mu).
Proof. exact sys_mathieu_exactly. Qed.
Print Assumptions C51_equation_of_motion.
Print Assumptions C51_exponents.
Print Assumptions C51_sorted_ascending.
Print Assumptions C51_sorted_keeps_stable_half.
Example C51_example :
  sorting_of [2; 0; 1]%nat [3; 5; -1] /\ (forall e, In e cov -> well_formed (egeom e)) /\ 0 < rf_scale 1 4 1 1.
Proof.
  split; [|split].
  - split.
    + cbn. apply perm_trans with (l' := [0; 2; 1]%nat); [apply perm_swap|apply perm_skip, perm_swap].
    + intros [|[|[|i]]] [|[|[|j]]] Hij Hj; cbn in *; try lia; lra.
  - exact cov_wf.
  - unfold rf_scale. apply Rdiv_lt_0_compat; [apply sqrt_lt_R0|]; lra.
Qed.

(** C53 *)
Theorem C53_pseudopotential :
  forall m q l o V s p, (forall e, In e s -> well_formed (egeom e)) -> 0 < m -> 0 < q -> 0 < l -> 0 < o ->
  pseudo_entry (rf_scale m q l o) (scale_rf V s) 0 [] p =
  q * V ^ 2 * (tensor_entry s TRf 1 (0%nat :: nil) p ^ 2 + tensor_entry s TRf 1 (1%nat :: nil) p ^ 2 + tensor_entry s TRf 1 (2%nat :: nil) p ^ 2)
  / (4 * m * o ^ 2 * l ^ 2).
Proof. exact rf_scale_pseudo. Qed.
Print Assumptions C53_pseudopotential.
Example C53_example : (forall e, In e cov -> well_formed (egeom e)) /\ 0 < 40 /\ 0 < 1 / 10.
Proof. split; [exact cov_wf|lra]. Qed.
