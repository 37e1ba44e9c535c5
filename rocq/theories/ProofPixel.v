From Coquelicot Require Import Coquelicot.
From Coq Require Import Permutation.
From Verif Require Import Base ModelExpr ModelUtils ModelField SpecTensor SpecField ProofTensor ProofField.
Open Scope R_scope.
Notation length := List.length.

(** ** One pixel *)
Definition pterm (n i : nat) (x y z : R) : R :=
  nth i (point_expr n x y z (sqrt (x ^ 2 + y ^ 2 + z ^ 2)) 1) 0.

Lemma quot_derive (N Q : R -> R) (N' q c : R) (m : nat) :
  c <> 0 -> 0 < Q 0 -> is_derive N 0 N' -> is_derive Q 0 (2 * q) ->
  is_derive (fun t => N t * (1 / (c * sqrt (Q t) ^ m))) 0
    ((N' * Q 0 - INR m * q * N 0) * (1 / (c * sqrt (Q 0) ^ (m + 2)))).
Proof.
  intros Hc HS HN HSd.
  assert (Hs : sqrt (Q 0) * sqrt (Q 0) = Q 0) by (apply sqrt_sqrt; lra).
  assert (Hp : 0 < sqrt (Q 0)) by (apply sqrt_lt_R0; lra).
  assert (DN : ex_derive N 0) by (eexists; eauto).
  assert (DS : ex_derive Q 0) by (eexists; eauto).
  assert (E1 : Derive (fun t => N t) 0 = N') by (apply is_derive_unique; exact HN).
  assert (E2 : Derive (fun t => Q t) 0 = 2 * q) by (apply is_derive_unique; exact HSd).
  auto_derive.
  - repeat split; auto. apply Rmult_integral_contrapositive_currified; [exact Hc|].
    apply pow_nonzero. lra.
  - rewrite E1, E2. 
    replace (N' * Q 0) with (N' * (sqrt (Q 0) * sqrt (Q 0))) by (now rewrite Hs).
    set (s := sqrt (Q 0)) in *. destruct m as [|m].
    + cbn [pow Nat.pred INR Nat.add]. field. split; lra.
    + cbn [Nat.pred].
      replace (S m + 2)%nat with (S (S (S m))) by lia. cbn [pow].
      assert (s ^ m <> 0) by (apply pow_nonzero; lra).
      field. repeat split; auto; lra.
Qed.
Lemma is_derive_eq (f : R -> R) x l l' : is_derive f x l -> l = l' -> is_derive f x l'.
Proof. now intros H <-. Qed.

Definition red_val (c : nat -> R) (e : ent) : R :=
  match e with Sel i => c i | Lap a b => - c a - c b end.
Definition target (n i k : nat) : ent :=
  entry (S n) (k :: name_idx (nth i (names_of n) ""%string)).


Lemma sq3_nonneg a b c : 0 <= a ^ 2 + b ^ 2 + c ^ 2.
Proof. nra. Qed.
Lemma mul_eq_aux (A B c c' s : R) : c <> 0 -> c' <> 0 -> A * c' = B * c -> 
  A * (1 / (c * s)) = B * (1 / (c' * s)).
Proof.
  intros Hc Hc' H. destruct (Req_dec s 0) as [->|Hs].
  - rewrite !Rmult_0_r. unfold Rdiv. rewrite Rinv_0. ring.
  - apply (Rmult_eq_reg_r (c * c' * s)).
    + transitivity (A * c'); [field; auto|]. rewrite H. field; auto.
    + repeat apply Rmult_integral_contrapositive_currified; auto.
Qed.
Lemma lap_aux (A B c s : R) :
  - (A * (1 / (c * s))) - B * (1 / (c * s)) = (- A - B) * (1 / (c * s)).
Proof. ring. Qed.

Ltac point_goal q :=
  unfold pterm; cbv beta iota delta [point_expr point_expr0 point_expr1 point_expr2 point_expr3
      point_expr4 point_expr5 nth red_val] zeta;
  eapply is_derive_eq;
  [ eapply is_derive_ext;
    [ intros t; symmetry; rewrite ?(pow2_sqrt _ (sq3_nonneg _ _ _)); reflexivity
    | eapply (quot_derive _ _ _ q);
      [ pose proof PI_RGT_0; lra | rewrite ?Rplus_0_r; assumption
      | auto_derive; [exact I|reflexivity]
      | auto_derive; [exact I|ring] ] ]
  | cbn beta; rewrite ?(pow2_sqrt _ (sq3_nonneg _ _ _)), ?lap_aux, ?Rplus_0_r;
    apply mul_eq_aux; [pose proof PI_RGT_0; lra | pose proof PI_RGT_0; lra |];
    cbn [INR]; field ].
Ltac all_entries q n i :=
  do 5 (destruct n as [|n];
    [ repeat (tryif (exfalso; lia) then idtac else (destruct i as [|i];
        [ match goal with |- context [target ?a ?b ?c] =>
            let v := eval vm_compute in (target a b c) in
            change (target a b c) with v end;
          point_goal q |])) |]); exfalso; lia.
Lemma pterm_dx n i x y z : (n <= 4)%nat -> (i < 2 * n + 1)%nat -> 0 < x ^ 2 + y ^ 2 + z ^ 2 ->
  is_derive (fun t => pterm n i (x + t) y z) 0
    (red_val (fun j => pterm (S n) j x y z) (target n i 0)).
Proof. intros Hn Hi Hpos. all_entries x n i. Qed.
Lemma pterm_dy n i x y z : (n <= 4)%nat -> (i < 2 * n + 1)%nat -> 0 < x ^ 2 + y ^ 2 + z ^ 2 ->
  is_derive (fun t => pterm n i x (y + t) z) 0
    (red_val (fun j => pterm (S n) j x y z) (target n i 1)).
Proof. intros Hn Hi Hpos. all_entries y n i. Qed.
Lemma pterm_dz n i x y z : (n <= 4)%nat -> (i < 2 * n + 1)%nat -> 0 < x ^ 2 + y ^ 2 + z ^ 2 ->
  is_derive (fun t => pterm n i x y (z + t)) 0
    (red_val (fun j => pterm (S n) j x y z) (target n i 2)).
Proof. intros Hn Hi Hpos. all_entries z n i. Qed.

