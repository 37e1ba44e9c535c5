(** Property theorems C112 and C113. *)
From Verif Require Import Base ModelUtils ModelField ModelCons SpecTensor SpecField SpecCons SpecMirror ProofCons ProofMirror.
Open Scope R_scope.
Notation length := List.length.

(** ** C112 *)
(** every sequence has a mirror-extension *)
Theorem C112_extension : forall steps e, (1 <= length steps)%nat -> exists f, mirrored steps e f.
Proof. exact mirrored_exists. Qed.
(** the entries are the differences of the mirror-extended sequence: for an
    even order one centred at every step, for an odd order one more stride *)
Theorem C112_entries : forall order delta variables, (1 <= delta)%nat -> (delta < length variables)%nat ->
  exists vs, vd_get order delta true variables = Ok vs /\ length vs = (length variables + order mod 2 * delta)%nat /\
  forall e f, mirrored variables e f -> forall i, (i < length vs)%nat ->
    nth i vs vzero e = difference_from order delta f (Z.of_nat i - Z.of_nat ((order + 1) / 2 * delta)) / INR delta ^ order.
Proof. exact get_mirror. Qed.
Theorem C112_bounds : forall m order delta variables mx, (1 <= delta)%nat -> (delta < length variables)%nat -> (1 <= m)%nat ->
  exists coefs, vd_coef m order delta true true NInf variables = Ok coefs /\
  forall f, (forall e, mirrored variables e (f e)) ->
  (vd_admits (Some mx) None coefs <->
   forall i e, (i < length variables + order mod 2 * delta)%nat -> (e < m)%nat ->
     Rabs (difference_from order delta (f e) (Z.of_nat i - Z.of_nat ((order + 1) / 2 * delta)) / INR delta ^ order) <= mx).
Proof. exact mirror_bounds. Qed.
(** three steps 0, 1, 4 with order 2: 2*1 - 2*0, 4 - 2 + 0, 1 - 8 + 1 *)
Example C112_example : let v := map (fun x (_ : nat) => x) [0; 1; 4] in
  exists vs, vd_get 2 1 true v = Ok vs /\ length vs = 3%nat /\
  nth 0 vs vzero 0%nat = 2 /\ nth 1 vs vzero 0%nat = 2 /\ nth 2 vs vzero 0%nat = -6.
Proof.
  intros v. eexists. split; [reflexivity|]. cbn. unfold vscale, vsub. cbn. repeat split; field.
Qed.
Print Assumptions C112_extension.
Print Assumptions C112_entries.
Print Assumptions C112_bounds.

(** ** C113 *)
(** orders 2 and 4: the two differences centred at the ends are added *)
Theorem C113_ends_partial : forall order delta variables, (order = 2 \/ order = 4)%nat -> (1 <= delta)%nat ->
  (order / 2 * delta < length variables)%nat ->
  exists plain a b, vc_values (Z.of_nat order) (Z.of_nat delta) false variables = Ok plain /\
  vc_values (Z.of_nat order) (Z.of_nat delta) true variables = Ok (plain ++ [a; b]) /\
  forall e f, mirrored variables e f ->
    a e = Rabs (central_difference order delta f 0) /\
    b e = Rabs (central_difference order delta f (Z.of_nat (length variables) - 1)).
Proof. exact vc_mirror. Qed.
(** any other order ignores smooth *)
Theorem C113_refuted_odd : forall order delta variables, (order <> 2)%Z -> (order <> 4)%Z ->
  vc_values order delta true variables = vc_values order delta false variables.
Proof. exact vc_ignored. Qed.
(** order 4: every term is 0 although the mirror-extended sequence has the
    fourth difference 4 at the second step *)
Theorem C113_refuted_inner : exists variables vs, length variables = 4%nat /\ vc_values 4 1 true variables = Ok vs /\
  (forall v e, In v vs -> v e = 0) /\
  forall e f, mirrored variables e f -> central_difference 4 1 f 1 = 4.
Proof. exists missed. destruct missed_terms as (vs & H). exists vs. split; [reflexivity|exact H]. Qed.
Example C113_example : let v := map (fun x (_ : nat) => x) [0; 1; 4] in
  exists vs, vc_values 2 1 true v = Ok vs /\ length vs = 3%nat /\ nth 1 vs vzero 0%nat = 2 /\ nth 2 vs vzero 0%nat = 6.
Proof.
  intros v. eexists. split; [reflexivity|]. split; [reflexivity|]. split.
  - change (Rabs (2 * 0 + (-2 * 1 + 0)) = 2). replace (2 * 0 + (-2 * 1 + 0)) with (-2) by ring. rewrite Rabs_left; lra.
  - change (Rabs (2 * 4 + (-2 * 1 + 0)) = 6). rewrite Rabs_pos_eq; lra.
Qed.
Print Assumptions C113_ends_partial.
Print Assumptions C113_refuted_odd.
Print Assumptions C113_refuted_inner.
