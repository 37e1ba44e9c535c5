(** C171: what sum_c returns and prints. *)
From Coq Require Import Lra Lia.
From Verif Require Import Base ModelMathieu SpecMathieu ModelSumC SpecSumC ProofSumC PropsMathieu.
Open Scope R_scope.
Notation length := List.length.

(** the six sums over all orders, whenever the coefficients can be computed *)
Theorem C171_sums : forall a q nu nc ng Ccn Csn cn, coeff_Cn a q nu nc ng = Ok (Ccn, Csn, cn) ->
  exists p t, sum_c a q nu nc ng = Ok (p, t) /\
  totn t = over_orders nc (fun n => IZR n * coefficient nc Ccn n) /\
  totnu t = over_orders nc (fun n => (nu + 2 * IZR n) * coefficient nc Ccn n) /\
  totg t = over_orders nc (fun n => (a - (nu + 2 * IZR n) ^ 2) / q * coefficient nc Ccn n) /\
  totgn t = over_orders nc (fun n => (a - (nu + 2 * IZR n) ^ 2) / q * IZR n * coefficient nc Ccn n) /\
  tots t = over_orders nc (coefficient nc Csn) /\
  totsnu t = over_orders nc (fun n => (nu + 2 * IZR n) * coefficient nc Csn n) /\
  p = (totgn t - 2 * totn t, (totsnu t * coefficient nc Ccn 0 / coefficient nc Csn 0 - nu) / 2 - totn t).
Proof. exact totals_ok. Qed.
(** the normalisation; the second number printed is 0, whatever nu is *)
Theorem C171_normalised : forall a q nu nc ng Ccn Csn cn p t, coeff_Cn a q nu nc ng = Ok (Ccn, Csn, cn) -> sum_c a q nu nc ng = Ok (p, t) ->
  sumR cn <> 0 -> over_orders nc (fun n => (nu + 2 * IZR n) * coefficient nc cn n) <> 0 ->
  totsnu t = 1 /\ totnu t = nu + 2 * totn t /\ snd p = 0.
Proof. exact normal_ok'. Qed.
(** the first number printed consists of the errors of the recurrence at the truncation,
    the orders ±nc and ±(nc+1), and not of the one at the order 0, which is 0 only if nu is
    the characteristic exponent; totg has it *)
Theorem C171_first : forall a q nu nc ng Ccn Csn cn p t, (1 <= nc)%nat -> coeff_Cn a q nu nc ng = Ok (Ccn, Csn, cn) -> sum_c a q nu nc ng = Ok (p, t) ->
  let r := residue a q nu (coefficient nc Ccn) in let N := Z.of_nat nc in
  q * fst p = IZR N * (r N - r (- N)%Z) + IZR (N + 1) * (r (N + 1)%Z - r (- N - 1)%Z) /\
  (sumR cn <> 0 -> q * (totg t - 2) = r 0%Z + (r N + r (- N)%Z) + (r (N + 1)%Z + r (- N - 1)%Z)).
Proof. exact first_ok. Qed.
Print Assumptions C171_sums.
Print Assumptions C171_normalised.
Print Assumptions C171_first.

(** a = 0, q = 1, nu = 1/10, nc = 1, ng = 0 *)
Example C171_example : exists p t, sum_c 0 1 (1 / 10) 1 0 = Ok (p, t) /\ totsnu t = 1 /\ snd p = 0.
Proof.
  destruct small_case as (Ccn & Csn & E). destruct (C171_sums _ _ _ _ _ _ _ _ E) as (p & t & S & _).
  exists p, t. split; [exact S|]. destruct (C171_normalised _ _ _ _ _ _ _ _ p t E S) as (A & _ & B).
  - cbn. lra.
  - unfold over_orders. change (zrange (- Z.of_nat 1) (Z.of_nat 1 + 1)) with [-1; 0; 1]%Z. set (c := coefficient _ _).
    assert (A : c (-1)%Z = - (100 / 361)) by reflexivity. assert (B : c 0%Z = 1) by reflexivity. assert (D : c 1%Z = - (100 / 441)) by reflexivity.
    cbn [map sumR fold_right]. rewrite A, B, D. lra.
  - split; assumption.
Qed.
