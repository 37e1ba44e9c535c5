(** C55-C57, C90, C91 *)
From Coquelicot Require Import Coquelicot.
From Verif Require Import Base ModelMathieu SpecMathieu ProofMathieu.
Open Scope R_scope.
Notation length := List.length.

(** C55 *)
Theorem C55_recurrence :
  forall a q nu nc ng Ccn Csn cn n, coeff_Cn a q nu nc ng = Ok (Ccn, Csn, cn) -> (0 < Z.abs n < Z.of_nat nc)%Z ->
  recurs a q nu (coefficient nc cn) n /\ recurs a q nu (coefficient nc Ccn) n /\ recurs a q nu (coefficient nc Csn) n.
Proof. exact recurrence. Qed.
Theorem C55_lengths :
  forall a q nu nc ng Ccn Csn cn, coeff_Cn a q nu nc ng = Ok (Ccn, Csn, cn) ->
  length cn = (2 * nc + 1)%nat /\ length Ccn = (2 * nc + 1)%nat /\ length Csn = (2 * nc + 1)%nat /\ coefficient nc cn 0 = 1.
Proof. exact Cn_length. Qed.
Theorem C55_defined :
  forall a q nu nc ng, q <> 0 -> (0 < nc)%nat -> (forall n, n <> 0%Z -> 2 * Rabs q <= Rabs (a - (nu + 2 * IZR n) ^ 2)) ->
  exists Ccn Csn cn, coeff_Cn a q nu nc ng = Ok (Ccn, Csn, cn).
Proof. exact defined. Qed.
(** Mathieu's equation holds up to the orders 0, ±nc and ±(nc+1) *)
Theorem C55_equation :
  forall a q nu nc ng Ccn Csn cn t, (1 <= nc)%nat -> coeff_Cn a q nu nc ng = Ok (Ccn, Csn, cn) ->
  let m := Mathieu nu Ccn Csn in let N := Z.of_nat nc in
  y1 m t 2 + (a - 2 * q * cos (2 * t)) * y1 m t 0 =
  sumR (map (fun n => residue a q nu (coefficient nc Ccn) n * cos ((nu + 2 * IZR n) * t)) [(- N - 1); - N; 0; N; N + 1]%Z).
Proof. exact equation1. Qed.
Theorem C55_equation_odd :
  forall a q nu nc ng Ccn Csn cn t, (1 <= nc)%nat -> coeff_Cn a q nu nc ng = Ok (Ccn, Csn, cn) ->
  let m := Mathieu nu Ccn Csn in let N := Z.of_nat nc in
  y2 m t 2 + (a - 2 * q * cos (2 * t)) * y2 m t 0 =
  sumR (map (fun n => residue a q nu (coefficient nc Csn) n * sin ((nu + 2 * IZR n) * t)) [(- N - 1); - N; 0; N; N + 1]%Z).
Proof. exact equation2. Qed.
Print Assumptions C55_recurrence.
Print Assumptions C55_lengths.
Print Assumptions C55_defined.
Print Assumptions C55_equation.
Print Assumptions C55_equation_odd.
(** a = 0, q = 1/10, nu = 1/10: the usual range of an ion trap *)
Example C55_example : exists Ccn Csn cn, coeff_Cn 0 (1 / 10) (1 / 10) 5 5 = Ok (Ccn, Csn, cn) /\ recurs 0 (1 / 10) (1 / 10) (coefficient 5 cn) (-4).
Proof.
  destruct (C55_defined 0 (1 / 10) (1 / 10) 5 5) as (u & v & w & E); [lra|lia| |exists u, v, w; split; [exact E|]; apply (C55_recurrence _ _ _ _ _ _ _ _ (-4) E); lia].
  intros n Hn. rewrite (Rabs_pos_eq (1 / 10)) by lra. rewrite Rabs_minus_sym, Rminus_0_r, Rabs_pos_eq by apply pow2_ge_0.
  destruct (Z.lt_total n 0) as [L|[L|L]]; [|contradiction|].
  - assert (B : IZR n <= -1) by (apply IZR_le; lia). nra.
  - assert (B : 1 <= IZR n) by (apply IZR_le; lia). nra.
Qed.

(** C56 *)
Theorem C56_derivatives :
  forall m k t,
  is_derive_n (fun t => y1 m t 0) k t (y1 m t k) /\ is_derive_n (fun t => y2 m t 0) k t (y2 m t k) /\
  sol_y1 (Some m) t k = Ok (y1 m t k) /\ sol_y2 (Some m) t k = Ok (y2 m t k).
Proof. intros m k t. exact (conj (y1_derivs m k t) (conj (y2_derivs m k t) (conj eq_refl eq_refl))). Qed.
(** before init_sol *)
Theorem C56_before :
  forall t k, sol_y1 None t k = Raise AttributeError /\ sol_y2 None t k = Raise AttributeError.
Proof. intros t k. split; reflexivity. Qed.
Print Assumptions C56_before.
Theorem C56_initial_values :
  forall a q nu nc ng Ccn Csn cn, coeff_Cn a q nu nc ng = Ok (Ccn, Csn, cn) ->
  let m := Mathieu nu Ccn Csn in
  (sumR cn <> 0 -> y1 m 0 0 = 1) /\ y1 m 0 1 = 0 /\ y2 m 0 0 = 0 /\
  (sumR (map2 Rmult (map (fun n => nu + 2 * IZR n) (zrange (- Z.of_nat nc) (Z.of_nat nc + 1))) cn) <> 0 -> y2 m 0 1 = 1).
Proof. exact initial_values. Qed.
Print Assumptions C56_derivatives.
Print Assumptions C56_initial_values.
(** the two sums are not zero for a = 0, q = 1, nu = 1/10, nc = 1, ng = 0 *)
Lemma small_case : exists Ccn Csn, coeff_Cn 0 1 (1 / 10) 1 0 = Ok (Ccn, Csn, [- (100 / 361); 1; - (100 / 441)]).
Proof.
  assert (R : coeff_ratio 0 1 (1 / 10) 1 0 = Ok ([- (100 / 361)], [- (100 / 441)])).
  { unfold coeff_ratio, gn, divide. cbv zeta. cbn [Z.of_nat Pos.of_succ_nat].
    destruct (Req_EM_T 1 0); [lra|]. cbn [bind Z.add Z.opp Z.sub].
    destruct (Req_EM_T _ 0) as [E|_]; [exfalso; cbn in E; lra|]. cbn [bind].
    destruct (Req_EM_T _ 0) as [E|_]; [exfalso; cbn in E; lra|]. cbn [bind].
    change (zrange (Z.pos_sub 1 1) (Z.pos_sub 1 1)) with (@nil Z). cbn [loop bind fst snd]. change (zrange (Z.pos_sub 1 1) 0) with (@nil Z). cbn [loop bind fst snd].
    match goal with |- Ok (?x :: nil, ?y :: nil) = _ => replace x with (- (100 / 361)) by (cbn; field); replace y with (- (100 / 441)) by (cbn; field) end. reflexivity. }
  unfold coeff_Cn. rewrite R. cbn [bind seq fold_left nth hd last app removelast length Nat.sub].
  rewrite !Rmult_1_l. do 2 eexists. reflexivity.
Qed.
Example C56_example : exists Ccn Csn cn, coeff_Cn 0 1 (1 / 10) 1 0 = Ok (Ccn, Csn, cn) /\ sumR cn <> 0 /\
  sumR (map2 Rmult (map (fun n => 1 / 10 + 2 * IZR n) (zrange (- Z.of_nat 1) (Z.of_nat 1 + 1))) cn) <> 0.
Proof.
  destruct small_case as (u & v & E). exists u, v, [- (100 / 361); 1; - (100 / 441)]. split; [exact E|].
  change (zrange (- Z.of_nat 1) (Z.of_nat 1 + 1)) with [-1; 0; 1]%Z. cbn. split; lra.
Qed.

(** C57 *)
Theorem C57_initial_value_at_0_partial :
  forall a q nu nc ng Ccn Csn cn y0, coeff_Cn a q nu nc ng = Ok (Ccn, Csn, cn) -> sumR cn <> 0 ->
  sumR (map2 Rmult (map (fun n => nu + 2 * IZR n) (zrange (- Z.of_nat nc) (Z.of_nat nc + 1))) cn) <> 0 ->
  let m := Mathieu nu Ccn Csn in exists A B, init_value (Some m) y0 0 = Ok (A, B) /\
  A * y1 m 0 0 + B * y2 m 0 0 = fst y0 /\ A * y1 m 0 1 + B * y2 m 0 1 = snd y0.
Proof. exact init_value_0. Qed.
Theorem C57_refuted_other_times : forall m y0 t0, t0 <> 0 -> init_value (Some m) y0 t0 = Raise TypeError.
Proof. exact init_value_other. Qed.
(** the two numbers that are handed to np.array are the right ones *)
Theorem C57_superposition_partial :
  forall m y0 t0, y1 m t0 0 * y2 m t0 1 - y1 m t0 1 * y2 m t0 0 <> 0 ->
  let ab := superposition m y0 t0 in
  fst ab * y1 m t0 0 + snd ab * y2 m t0 0 = fst y0 /\ fst ab * y1 m t0 1 + snd ab * y2 m t0 1 = snd y0.
Proof. exact superposes. Qed.
Print Assumptions C57_initial_value_at_0_partial.
Print Assumptions C57_refuted_other_times.
Print Assumptions C57_superposition_partial.
Example C57_example : exists Ccn Csn, let m := Mathieu (1 / 10) Ccn Csn in
  y1 m 0 0 * y2 m 0 1 - y1 m 0 1 * y2 m 0 0 <> 0 /\ init_value (Some m) (2, 3) 0 = Ok (2, 3) /\ init_value (Some m) (2, 3) 1 = Raise TypeError.
Proof.
  destruct C56_example as (u & v & w & E & A & B). exists u, v. intros m.
  destruct (C56_initial_values _ _ _ _ _ _ _ _ E) as (H1 & H2 & H3 & H4). fold m in H1, H2, H3, H4. rewrite H1, H2, H3, H4 by assumption.
  split; [lra|]. split; [|apply C57_refuted_other_times; lra]. unfold init_value. destruct (Req_EM_T 0 0); [reflexivity|lra].
Qed.

(** C90 *)
Theorem C90_hill_matrix :
  forall a q ntr, (0 < ntr)%nat -> exists m, hill_matrix a q ntr = Ok m /\
  forall i j, (i <= 2 * ntr)%nat -> (j <= 2 * ntr)%nat ->
  m i j = if (i =? j)%nat then 1 else if ((i =? j + 1) || (j =? i + 1))%nat%bool then q / ((2 * (INR i - INR ntr)) ^ 2 - a) else 0.
Proof. exact hill_rows. Qed.
Theorem C90_tolerance :
  forall f tol nstart nu n, nu_tolerance f tol nstart = Ok (nu, n) ->
  exists i, (i < 100)%nat /\ n = (2 * (nstart * (i + 1)))%nat /\ nu = f n /\ Rabs (f (nstart * (i + 1))%nat - nu) < tol /\
  forall j, (j < i)%nat -> tol <= Rabs (f (nstart * (j + 1))%nat - f (2 * (nstart * (j + 1)))%nat).
Proof. exact tolerance_ok. Qed.
Theorem C90_tolerance_fails :
  forall f tol nstart e, nu_tolerance f tol nstart = Raise e -> e = ValueError /\
  forall j, (j < 100)%nat -> tol <= Rabs (f (nstart * (j + 1))%nat - f (2 * (nstart * (j + 1)))%nat).
Proof. exact tolerance_raises. Qed.
Print Assumptions C90_hill_matrix.
Print Assumptions C90_tolerance.
Print Assumptions C90_tolerance_fails.
Example C90_example : exists nu, nu_tolerance (fun n => / INR n) (1 / 15) 5 = Ok (nu, 20%nat).
Proof.
  unfold nu_tolerance. change (seq 0 100) with (0 :: 1 :: seq 2 98)%nat. generalize (seq 2 98). intros l. cbv iota zeta. cbn [Nat.mul Nat.add].
  destruct (Rlt_dec _ _) as [H|_]; [exfalso; cbn [INR] in H; rewrite Rabs_pos_eq in H; lra|].
  destruct (Rlt_dec _ _) as [_|H]; [eexists; reflexivity|exfalso; apply H; cbn [INR]; rewrite Rabs_pos_eq; lra].
Qed.

(** C91 *)
Theorem C91_continued_fractions :
  forall a q nu nc ng rn rp, (0 < nc)%nat -> coeff_ratio a q nu nc ng = Ok (rn, rp) ->
  length rp = nc /\ length rn = nc /\ forall k, (k < nc)%nat ->
  nth k rp 0 = continued (fun n => (a - (nu + 2 * INR n) ^ 2) / q) (k + 1) (nc + ng - (k + 1)) /\
  nth (nc - 1 - k) rn 0 = continued (fun n => (a - (nu - 2 * INR n) ^ 2) / q) (k + 1) (nc + ng - (k + 1)).
Proof. exact ratio_continued. Qed.
Print Assumptions C91_continued_fractions.
Example C91_example : exists rn rp, coeff_ratio 0 (1 / 10) (1 / 10) 5 5 = Ok (rn, rp).
Proof.
  destruct C55_example as (u & v & w & E & _). unfold coeff_Cn in E. destruct (coeff_ratio _ _ _ _ _) as [[rn rp]|]; [|discriminate E]. exists rn, rp. reflexivity.
Qed.
