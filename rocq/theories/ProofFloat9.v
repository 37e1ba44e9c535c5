(** Proof of C181: the entries of one edge. *)
From Flocq Require Import Core.
From Verif Require Import Base ModelExpr ModelField ModelFloat ModelFloatExpr ModelFloatField SpecFloat SpecFloat2 SpecFloat3
  ProofFloat ProofFloat2 ProofFloat3 ProofFloat4 ProofFloat5 ProofFloat6 ProofFloat7 ProofFloat8.
Import ListNotations.
Open Scope R_scope.

Definition poly_amp (d : nat) : R :=
  match d with 1%nat => 2 | 2%nat => 192 | 3%nat => 6400 | 4%nat => 626560 | _ => 79169536 end.
Definition poly_round (d : nat) : nat :=
  match d with 1%nat => 10 | 2%nat => 49 | 3%nat => 81 | 4%nat => 112 | _ => 138 end.
Definition poly_z (d : nat) : Z :=
  match d with 1%nat => 2 | 2%nat => 192 | 3%nat => 6400 | 4%nat => 626560 | _ => 79169536 end%Z.
Definition pdeg (d : nat) : nat := match d with 1%nat => 2 | _ => (5 * d - 2)%nat end.
Lemma poly_checks d : (1 <= d <= 5)%nat ->
  forallb (fun q => match pe q with
                    | Some (k, (c, m)) => (k <=? poly_round d)%nat && (c <=? poly_z d)%Z && (m =? pdeg d)%nat
                    | None => false end) (tokens d) = true.
Proof. intros H. destruct d as [|[|[|[|[|[|d]]]]]]; try lia; vm_compute; reflexivity. Qed.
Lemma poly_amp_z d : IZR (poly_z d) = poly_amp d.
Proof. destruct d as [|[|[|[|[|d]]]]]; reflexivity. Qed.

Lemma near_bounded k f e : near k f e -> bounded k f e (Rabs e).
Proof. intros H. split; [apply near_abs, H|apply Rle_refl]. Qed.

Section edge.
Variables (pw : R -> nat -> R) (at2 : R -> R -> R) (p : R).
Hypotheses (Hw : good_pow pw) (Hpi : good_pi p).
Let A := b64x pw at2 p.
Let Hr : forall x, near 1 (rnd A x) x.
Proof. intros x. apply round_near. Qed.
Let Hp : forall x n, near 2 (lpow A x n) (x ^ n).
Proof. intros x n. apply pow_near, Hw. Qed.
Let Hpi' : near 1 (lpi A) PI.
Proof. apply pi_near, Hpi. Qed.

Lemma edge_slope d v x (q1 q2 : p2) h (a : fx) c :
  (1 <= d <= 5)%nat -> 0 < pz x -> clear_of x (q1, q2) ->
  a = Volt /\ c = 1 \/ a = Mul (Num c) Volt ->
  let z := fx_z x 0 h in
  let x1 := fx_x x q1 in let y1 := fx_y x q1 in let r1 := fx_r x1 y1 z in
  let x2 := fx_x x q2 in let y2 := fx_y x q2 in let r2 := fx_r x2 y2 z in
  forall e, In e (edge_fx d x1 x2 y1 y2 r1 r2 (fx_l2 x1 x2 y1 y2) z a) ->
  bounded (roundings d) (feval A v e) (feval exact v e) (Rabs v * (Rabs c * side_slope d x q1 q2)).
Proof.
  intros Hd Hz [Hs Hf] Hc z x1 y1 r1 x2 y2 r2 e He. cbn [fst snd] in Hs, Hf.
  rewrite edge_entries in He by exact Hd. apply in_map_iff in He as (q & <- & Hq).
  pose proof (proj1 (forallb_forall _ _) (poly_checks d Hd) q Hq) as Ck. cbv beta in Ck.
  destruct (pe q) as [[k [co m]]|] eqn:Ep; [|discriminate].
  apply andb_prop in Ck as [Ck Cm]. apply andb_prop in Ck as [Ck Cc].
  apply Nat.leb_le in Ck. apply Z.leb_le in Cc. apply Nat.eqb_eq in Cm. subst m.
  set (l2 := fx_l2 x1 x2 y1 y2).
  assert (EZ : feval exact v z = pz x) by (unfold z; rewrite z_exact; ring).
  assert (ER : forall q, feval exact v (fx_r (fx_x x q) (fx_y x q) z) = dist x q).
  { intros q'. unfold fx_r. cbn [feval exact rnd lpow]. change (feval (Arith (fun x => x) pow _ PI)) with (feval exact).
    rewrite EZ. reflexivity. }
  set (R1 := dist x q1). set (R2 := dist x q2). set (rho := far x q1 q2). set (L := spread x q1 q2) in *.
  set (X1 := px x - fst q1). set (Y1 := py x - snd q1). set (X2 := px x - fst q2). set (Y2 := py x - snd q2).
  assert (DZ : forall q, pz x <= dist x q).
  { intros q'. eapply Rle_trans; [apply Rle_abs|]. unfold dist. rewrite Rplus_comm, <- Rplus_assoc. apply comp_le. }
  pose proof (DZ q1) as Z1. fold R1 in Z1. pose proof (DZ q2) as Z2. fold R2 in Z2.
  assert (M1 : R1 <= rho) by apply Rmax_l. assert (M2 : R2 <= rho) by apply Rmax_r.
  assert (BX : forall q, Rabs (px x - fst q) <= dist x q /\ Rabs (py x - snd q) <= dist x q).
  { intros q'. split; unfold dist; [apply comp_le|]. rewrite (Rplus_comm (_ ^ 2) ((py x - snd q') ^ 2)). apply comp_le. }
  (* the variables *)
  assert (N1 : forall e, cls e = Some 1%nat \/ cls e = Some 4%nat -> near 4 (feval A v e) (feval exact v e)).
  { intros e [C|C]; [apply (near_weak 1); [lia|]|]; apply cls_near; assumption. }
  assert (B1 : forall e, In e [x1; x2; y1; y2; r1; r2; z] -> bounded 4 (feval A v e) (feval exact v e) rho).
  { intros e He. apply (bounded_size _ _ _ (Rabs (feval exact v e))).
    - destruct (BX q1) as [a1 a2]. destruct (BX q2) as [a3 a4]. fold R1 in a1, a2. fold R2 in a3, a4.
      repeat destruct He as [<-|He]; [..|destruct He]; unfold r1, r2, x1, x2, y1, y2; rewrite ?ER, ?EZ; cbn [fx_x fx_y feval exact rnd].
      all: fold R1 R2; try (rewrite Rabs_pos_eq by lra); try lra.
    - apply near_bounded, N1. repeat destruct He as [<-|He]; [..|destruct He]; auto. }
  assert (B2 : bounded 7 (feval A v l2) (feval exact v l2) (8 * rho ^ 2)).
  { assert (Bx : forall e, In e [x1; x2; y1; y2] -> bounded 1 (feval A v e) (feval exact v e) rho).
    { intros e He. split; [|apply B1; cbn in *; tauto].
      eapply Rle_trans; [apply (near_abs 1), cls_near; try assumption; repeat destruct He as [<-|He]; [reflexivity..|destruct He]|].
      apply Rmult_le_compat_l; [apply gam_pos|]. apply B1. cbn in *; tauto. }
    assert (Bd : forall e e', In e [x1; x2; y1; y2] -> In e' [x1; x2; y1; y2] ->
      bounded 6 (feval A v (Pow (Sub e e') 2)) (feval exact v (Pow (Sub e e') 2)) ((2 * rho) ^ 2)).
    { intros e e' I I'. cbn [feval exact rnd lpow]. apply (bounded_near 2 4 _ (rnd A (feval A v e - feval A v e') ^ 2)); [apply Hp|].
      apply (bounded_pow 2). apply (bounded_rnd A Hr). replace (2 * rho) with (rho + rho) by ring. unfold Rminus.
      apply bounded_add; [apply Bx, I|apply bounded_opp, Bx, I']. }
    unfold l2, fx_l2. replace (8 * rho ^ 2) with ((2 * rho) ^ 2 + (2 * rho) ^ 2) by ring.
    cbn [feval exact rnd]. apply (bounded_rnd A Hr), bounded_add; apply Bd; cbn; tauto. }
  assert (Rho : 0 < rho) by lra.
  pose proof (pe_bounded x1 x2 y1 y2 r1 r2 l2 z a A Hr Hp v rho B1 B2 q k co _ Ep) as BP.
  apply (bounded_weak _ (poly_round d)) in BP; [|exact Ck].
  assert (PR : forall n, 0 < rho ^ n) by (intros n; apply pow_lt, Rho).
  apply (bounded_size _ _ _ _ (poly_amp d * rho ^ pdeg d)) in BP.
  2:{ rewrite <- poly_amp_z. apply Rmult_le_compat_r; [left; apply PR|]. apply IZR_le, Cc. }
  (* the distances *)
  assert (NR : near 4 (feval A v r1) R1 /\ near 4 (feval A v r2) R2).
  { unfold R1, R2. rewrite <- (ER q1), <- (ER q2). split; apply N1; right; reflexivity. }
  destruct NR as [NR1 NR2].
  assert (NS : near 5 (feval A v (Add r1 r2)) (R1 + R2)).
  { cbn [feval]. apply (rnd_near A Hr). apply near_add; lra || assumption. }
  assert (NM : near 9 (feval A v (Mul r1 r2)) (R1 * R2)).
  { cbn [feval]. apply (rnd_near A Hr). apply (near_mul 4 4); assumption. }
  assert (BL : bounded 13 (feval A v (spread_fx r1 r2 l2)) L (12 * rho ^ 2)).
  { unfold L, spread, spread_fx. fold R1 R2. cbn [feval]. apply (bounded_rnd A Hr).
    replace (12 * rho ^ 2) with ((2 * rho) ^ 2 + 8 * rho ^ 2) by ring. unfold Rminus at 1 2. apply bounded_add.
    - apply (bounded_size _ _ _ (Rabs ((R1 + R2) ^ 2))).
      + rewrite Rabs_pos_eq by apply pow2_ge_0. apply pow_incr. lra.
      + apply near_bounded. change 12%nat with (2 + 2 * 5)%nat. eapply near_trans; [apply Hp|]. apply near_pow, NS.
    - apply bounded_opp, (bounded_weak 7); [lia|].
      replace ((fst q1 - fst q2) ^ 2 + (snd q1 - snd q2) ^ 2) with (feval exact v l2); [exact B2|].
      unfold l2, fx_l2, x1, x2, y1, y2. cbn [fx_x fx_y feval exact rnd lpow]. ring. }
  assert (G13 : gam 13 * (12 * rho ^ 2) <= L / 2).
  { pose proof u_pos as U0.
    assert (U : u64 <= 1 / 10 ^ 15 * (112 / 1000)).
    { unfold u64. apply Rmult_le_reg_l with (2 ^ 53); [apply pow_lt; lra|]. rewrite Rinv_r by (apply pow_nonzero; lra). lra. }
    assert (I13 : INR 13 = 13) by (cbn; lra).
    pose proof (gam_linear 13) as G. rewrite I13 in G. specialize (G ltac:(lra)).
    apply Rle_trans with (2 * (13 * u64) * (12 * (10 ^ 12 * L))); [|nra].
    apply Rmult_le_compat; [apply gam_pos|pose proof (PR 2%nat); lra|exact G|]. apply Rmult_le_compat_l; [lra|exact Hf]. }
  assert (NA : near 1 (feval A v a) (v * c)).
  { destruct Hc as [[-> ->]| ->]; cbn [feval].
    - rewrite Rmult_1_r. apply (near_weak 0); [lia|]. apply near_refl.
    - rewrite Rmult_comm. apply Hr. }
  pose (E := match d with 1%nat => v * c * (R1 + R2) / (R1 * R2) / PI | _ => v * c / (R1 * R2) ^ (2 * d - 1) / PI end).
  pose (jn := match d with 1%nat => 20%nat | _ => (9 * (2 * d - 1) + 9)%nat end).
  assert (PPI := PI_RGT_0).
  assert (R12 : 0 < R1 * R2) by (apply Rmult_lt_0_compat; lra).
  (* the factor of all entries *)
  set (G' := feval A v (spread_fx r1 r2 l2)) in *.
  assert (GP : 0 < G') by (destruct BL as [BL _]; apply Rabs_le_inv in BL; lra).
  assert (NN : near jn (feval A v (edge_n r1 r2 l2 a d)) (E * / G' ^ d)).
  { destruct d as [|[|d]]; [lia| |].
    - unfold edge_n, jn, E. cbn [feval]. fold (feval A v (Add r1 r2)). fold G'.
      replace (v * c * (R1 + R2) / (R1 * R2) / PI * / G' ^ 1) with (v * c * (R1 + R2) / (R1 * R2 * G') / PI) by (field; lra).
      apply (rnd_near A Hr). apply (near_div 18 1); [|exact Hpi'].
      apply (rnd_near A Hr). apply (near_div 7 10).
      + apply (rnd_near A Hr). apply (near_mul 1 5); assumption.
      + apply (rnd_near A Hr). apply (near_mul 9 0); [exact NM|apply near_refl].
    - set (D := S (S d)) in *.
      assert (EE : edge_n r1 r2 l2 a D = Div (Div (Div a (Pow (Mul r1 r2) (2 * D - 1))) (Pow (spread_fx r1 r2 l2) D)) Pi) by reflexivity.
      rewrite EE. unfold jn, E. change (match D with 1%nat => 20%nat | _ => (9 * (2 * D - 1) + 9)%nat end) with (9 * (2 * D - 1) + 9)%nat.
      change (match D with 1%nat => v * c * (R1 + R2) / (R1 * R2) / PI | _ => v * c / (R1 * R2) ^ (2 * D - 1) / PI end)
        with (v * c / (R1 * R2) ^ (2 * D - 1) / PI).
      clearbody D. set (n := (2 * D - 1)%nat).
      replace (v * c / (R1 * R2) ^ n / PI * / G' ^ D) with (v * c / (R1 * R2) ^ n / G' ^ D / PI) by (field; repeat split; try apply pow_nonzero; lra).
      change (feval A v (Div (Div (Div a (Pow (Mul r1 r2) n)) (Pow (spread_fx r1 r2 l2) D)) Pi))
        with (rnd A (rnd A (rnd A (feval A v a / lpow A (feval A v (Mul r1 r2)) n) / lpow A G' D) / lpi A)).
      replace (9 * n + 9)%nat with (S (S (S (1 + (2 + n * 9)) + 2) + 1))%nat by lia.
      apply (rnd_near A Hr), near_div; [|exact Hpi'].
      apply (rnd_near A Hr), near_div; [|apply Hp].
      apply (rnd_near A Hr), near_div; [exact NA|].
      eapply near_trans; [apply Hp|]. apply near_pow, NM. }
  pose proof (inv_pow_bounded 13 G' L (12 * rho ^ 2) d Hs BL G13) as BI.
  assert (BE : bounded 0 E E (Rabs E)) by apply near_bounded, near_refl.
  pose proof (bounded_mul 0 13 _ _ _ _ _ _ BE BI) as BN.
  apply (bounded_near jn (0 + 13) _ _ _ _ NN) in BN.
  assert (VN : feval exact v (edge_n r1 r2 l2 a d) = E * / L ^ d).
  { assert (VA : feval exact v a = v * c) by (destruct Hc as [[-> ->]| ->]; cbn [feval exact rnd]; ring).
    assert (V1 : feval exact v r1 = R1) by apply ER. assert (V2 : feval exact v r2 = R2) by apply ER.
    assert (VL : feval exact v (spread_fx r1 r2 l2) = L).
    { unfold L, spread, spread_fx. fold R1 R2. cbn [feval exact rnd lpow]. change (feval (Arith (fun x => x) pow _ PI)) with (feval exact).
      rewrite V1, V2. unfold l2, fx_l2, x1, x2, y1, y2. cbn [fx_x fx_y feval exact rnd lpow]. ring. }
    assert (LN : L <> 0) by lra.
    destruct d as [|[|d]]; [lia| |].
    - unfold edge_n, E. 
      change (feval exact v (Div (Div (Mul a (Add r1 r2)) (Mul (Mul r1 r2) (spread_fx r1 r2 l2))) Pi))
        with (feval exact v a * (feval exact v r1 + feval exact v r2) / (feval exact v r1 * feval exact v r2 * feval exact v (spread_fx r1 r2 l2)) / PI).
      rewrite VA, V1, V2, VL. field. repeat split; lra.
    - unfold edge_n, E.
      change (feval exact v (Div (Div (Div a (Pow (Mul r1 r2) (2 * S (S d) - 1))) (Pow (spread_fx r1 r2 l2) (S (S d)))) Pi))
        with (feval exact v a / (feval exact v r1 * feval exact v r2) ^ (2 * S (S d) - 1) / feval exact v (spread_fx r1 r2 l2) ^ S (S d) / PI).
      rewrite VA, V1, V2, VL. set (n := (2 * S (S d) - 1)%nat). clearbody n. set (D := S (S d)). clearbody D.
      field. repeat split; try apply pow_nonzero; lra. }
  rewrite <- VN in BN.
  pose proof (bounded_mul _ _ _ _ _ _ _ _ BP BN) as BF. apply (bounded_rnd A Hr) in BF.
  change (bounded (roundings d) (rnd A (feval A v (subst x1 x2 y1 y2 r1 r2 l2 z a q) * feval A v (edge_n r1 r2 l2 a d)))
    (feval exact v (subst x1 x2 y1 y2 r1 r2 l2 z a q) * feval exact v (edge_n r1 r2 l2 a d)) (Rabs v * (Rabs c * side_slope d x q1 q2))).
  eapply bounded_size; [|eapply bounded_weak; [|exact BF]].
  2:{ unfold jn. clear -Hd. destruct d as [|[|[|[|[|[|d]]]]]]; try lia; cbn; lia. }
  (* the size *)
  unfold side_slope. fold rho L R1 R2.
  assert (P12 : 12 <= 4 * PI) by (pose proof PI2_3_2; lra).
  assert (AE : Rabs E <= Rabs v * Rabs c * (if (d =? 1)%nat then 2 * rho else 1) / ((R1 * R2) ^ (2 * d - 1) * PI)).
  { rewrite <- Rabs_mult. set (n := (2 * d - 1)%nat) in *.
    assert (PN : forall n, 0 < (R1 * R2) ^ n) by (intros n0; apply pow_lt, R12).
    assert (PI2 : 0 < / PI) by (apply Rinv_0_lt_compat; lra).
    destruct d as [|[|d]]; [lia| |].
    - subst n. cbn [Nat.eqb Nat.mul Nat.add Nat.sub]. unfold E. clear -Z1 Z2 M1 M2 Hz PPI PI2 R12.
      unfold Rdiv. rewrite pow_1, !Rinv_mult, !Rabs_mult, !Rabs_inv.
      rewrite (Rabs_pos_eq PI), (Rabs_pos_eq R1), (Rabs_pos_eq R2), (Rabs_pos_eq (R1 + R2)) by lra.
      assert (0 < / R1) by (apply Rinv_0_lt_compat; lra). assert (0 < / R2) by (apply Rinv_0_lt_compat; lra).
      rewrite <- !Rmult_assoc. repeat (apply Rmult_le_compat_r; [lra|]).
      rewrite !(Rmult_assoc (Rabs v * Rabs c)). apply Rmult_le_compat_l; [apply Rmult_le_pos; apply Rabs_pos|lra].
    - change (S (S d) =? 1)%nat with false. unfold E. fold n. clearbody n.
      change (match S (S d) with 1%nat => v * c * (R1 + R2) / (R1 * R2) / PI | _ => v * c / (R1 * R2) ^ n / PI end) with (v * c / (R1 * R2) ^ n / PI).
      right. unfold Rdiv. rewrite !Rabs_mult, !Rabs_inv, (Rabs_pos_eq PI), (Rabs_pos_eq ((R1 * R2) ^ n)) by (lra || (left; apply PN)).
      rewrite Rinv_mult. ring. }
  set (n := (2 * d - 1)%nat) in *.
  assert (PN : 0 < / (R1 * R2) ^ n) by (apply Rinv_0_lt_compat, pow_lt, R12).
  assert (PL : 0 < / L ^ (d + 1)) by (apply Rinv_0_lt_compat, pow_lt, Hs).
  assert (PPA : 0 < poly_amp d) by (unfold poly_amp; destruct d as [|[|[|[|[|d']]]]]; lra).
  assert (P2 : 0 < 2 ^ (d + 1)) by (apply pow_lt; lra).
  assert (VC : 0 <= Rabs v * Rabs c) by (apply Rmult_le_pos; apply Rabs_pos).
  set (f := if (d =? 1)%nat then 2 * rho else 1) in *.
  assert (F0 : 0 < f) by (unfold f; destruct (d =? 1)%nat; lra).
  apply Rle_trans with (poly_amp d * rho ^ pdeg d * ((Rabs v * Rabs c * f / ((R1 * R2) ^ n * PI)) * (2 ^ (d + 1) * (12 * rho ^ 2) / L ^ (d + 1)))).
  { apply Rmult_le_compat_l; [apply Rmult_le_pos; [lra|left; apply PR]|]. apply Rmult_le_compat_r; [|exact AE].
    apply Rmult_le_pos; [|lra]. apply Rmult_le_pos; [lra|]. pose proof (PR 2%nat). lra. }
  assert (SA : poly_amp d * 2 ^ (d + 1) * 4 * (f * rho ^ pdeg d * rho ^ 2) = side_amp d * rho ^ (5 * d)).
  { unfold f. clear -Hd. destruct d as [|[|[|[|[|[|d]]]]]]; try lia; cbn [Nat.eqb pdeg poly_amp side_amp Nat.mul Nat.add Nat.sub]; ring. }
  replace (Rabs v * (Rabs c * (side_amp d * rho ^ (5 * d) / ((R1 * R2) ^ n * L ^ (d + 1)))))
    with (Rabs v * Rabs c * (side_amp d * rho ^ (5 * d)) * (/ (R1 * R2) ^ n * / L ^ (d + 1)))
    by (unfold Rdiv; rewrite (Rinv_mult ((R1 * R2) ^ n)); ring).
  rewrite <- SA.
  replace (poly_amp d * rho ^ pdeg d * (Rabs v * Rabs c * f / ((R1 * R2) ^ n * PI) * (2 ^ (d + 1) * (12 * rho ^ 2) / L ^ (d + 1))))
    with (Rabs v * Rabs c * (poly_amp d * 2 ^ (d + 1) * (12 / PI) * (f * rho ^ pdeg d * rho ^ 2)) * (/ (R1 * R2) ^ n * / L ^ (d + 1)))
    by (unfold Rdiv; rewrite (Rinv_mult ((R1 * R2) ^ n)); ring).
  apply Rmult_le_compat_r; [apply Rmult_le_pos; lra|]. apply Rmult_le_compat_l; [exact VC|].
  apply Rmult_le_compat_r; [apply Rmult_le_pos; [apply Rmult_le_pos; [lra|left; apply PR]|left; apply PR]|].
  apply Rmult_le_compat_l; [apply Rmult_le_pos; lra|].
  apply Rmult_le_reg_r with PI; [lra|]. unfold Rdiv. rewrite Rmult_assoc, Rinv_l by lra. lra.
Qed.
End edge.
