(** Proof of C184: the rounding error of the derivatives of one edge and of one
    pixel, for one image in the cover. *)
From Flocq Require Import Core.
From Verif Require Import Base ModelExpr ModelField ModelFloat ModelFloatExpr ModelFloatField SpecFloat SpecFloat2 SpecFloat3 SpecFloat5
  ProofFloat ProofFloat2 ProofFloat3 ProofFloat4 ProofFloat5 ProofFloat6 ProofFloat7 ProofFloat8 ProofFloat9.
Import ListNotations.
Open Scope R_scope.

Section leaves.
Variables (x1 x2 y1 y2 r1 r2 l2 z a : fx).
(** roundings, coefficient and degree of a polynomial *)
Fixpoint pe7 (e : fx) : option (nat * (Z * nat)) :=
  match e with
  | Lit z =>
      if (z <? 1000000)%Z then Some (0%nat, (Z.abs z, 0%nat))
      else if (z =? 1000007)%Z then Some (7%nat, (8%Z, 2%nat))
      else if ((1000000 <? z) && (z <? 1000009))%Z then Some (7%nat, (1%Z, 1%nat)) else None
  | Add a b | Sub a b =>
      match pe7 a, pe7 b with
      | Some (j, (c, m)), Some (k, (c', n)) => if (m =? n)%nat then Some (S (Nat.max j k), ((c + c')%Z, m)) else None
      | _, _ => None
      end
  | Mul a b =>
      match pe7 a, pe7 b with
      | Some (j, (c, m)), Some (k, (c', n)) => Some (S (j + k), ((c * c')%Z, (m + n)%nat))
      | _, _ => None
      end
  | Pow a n => match pe7 a with Some (k, (c, m)) => Some ((n * k + 2)%nat, ((c ^ Z.of_nat n)%Z, (n * m)%nat)) | None => None end
  | Neg a => pe7 a
  | _ => None
  end.

Variable A : arith.
Hypothesis Hr : forall x, near 1 (rnd A x) x.
Hypothesis Hp : forall x n, near 2 (lpow A x n) (x ^ n).
Hypothesis Hpi : near 1 (lpi A) PI.
Variables v rho : R.
Hypothesis Hrho : 0 <= rho.
Hypothesis H1 : forall e, In e [x1; x2; y1; y2; r1; r2; z] -> bounded 7 (feval A v e) (feval exact v e) rho.
Hypothesis H2 : bounded 7 (feval A v l2) (feval exact v l2) (8 * rho ^ 2).

Lemma pe7_bounded e : forall k c m, pe7 e = Some (k, (c, m)) ->
  bounded k (feval A v (subst x1 x2 y1 y2 r1 r2 l2 z a e)) (feval exact v (subst x1 x2 y1 y2 r1 r2 l2 z a e)) (IZR c * rho ^ m).
Proof.
  induction e; intros k c m H; cbn [pe7] in H; try discriminate.
  - cbn [subst]. destruct (Z.ltb_spec z0 1000000).
    + injection H as <- <- <-. cbn [feval exact]. rewrite Rmult_1_r, abs_IZR.
      split; [rewrite Rminus_diag_eq, Rabs_R0 by reflexivity|apply Rle_refl].
      apply Rmult_le_pos; [apply gam_pos|apply Rabs_pos].
    + destruct (Z.eqb_spec z0 1000007) as [->|N].
      * injection H as <- <- <-. exact H2.
      * destruct (Z.ltb_spec 1000000 z0); [|discriminate]. destruct (Z.ltb_spec z0 1000009); [|discriminate]. cbn [andb] in H. injection H as <- <- <-. rewrite pow_1, Rmult_1_l.
        assert (C : (z0 = 1000001 \/ z0 = 1000002 \/ z0 = 1000003 \/ z0 = 1000004 \/ z0 = 1000005 \/ z0 = 1000006 \/ z0 = 1000008)%Z) by lia.
        repeat destruct C as [C|C]; subst z0; apply H1; cbn; tauto.
  - destruct (pe7 e1) as [[j [c1 m1]]|]; [|discriminate]. destruct (pe7 e2) as [[k2 [c2 m2]]|]; [|discriminate].
    destruct (Nat.eqb_spec m1 m2) as [<-|]; [|discriminate]. injection H as <- <- <-.
    cbn [subst feval exact rnd]. rewrite plus_IZR, Rmult_plus_distr_r. apply (bounded_rnd A Hr), bounded_add.
    + apply (bounded_weak j); [lia|]. apply IHe1; reflexivity.
    + apply (bounded_weak k2); [lia|]. apply IHe2; reflexivity.
  - destruct (pe7 e1) as [[j [c1 m1]]|]; [|discriminate]. destruct (pe7 e2) as [[k2 [c2 m2]]|]; [|discriminate].
    destruct (Nat.eqb_spec m1 m2) as [<-|]; [|discriminate]. injection H as <- <- <-.
    cbn [subst feval exact rnd]. rewrite plus_IZR, Rmult_plus_distr_r. apply (bounded_rnd A Hr). unfold Rminus. apply bounded_add.
    + apply (bounded_weak j); [lia|]. apply IHe1; reflexivity.
    + apply bounded_opp, (bounded_weak k2); [lia|]. apply IHe2; reflexivity.
  - destruct (pe7 e1) as [[j [c1 m1]]|]; [|discriminate]. destruct (pe7 e2) as [[k2 [c2 m2]]|]; [|discriminate].
    injection H as <- <- <-. cbn [subst feval exact rnd]. apply (bounded_rnd A Hr).
    rewrite mult_IZR, pow_add. replace (IZR c1 * IZR c2 * (rho ^ m1 * rho ^ m2)) with ((IZR c1 * rho ^ m1) * (IZR c2 * rho ^ m2)) by ring.
    apply bounded_mul; [apply IHe1|apply IHe2]; reflexivity.
  - cbn [subst feval]. apply bounded_opp, IHe, H.
  - destruct (pe7 e) as [[j [c1 m1]]|]; [|discriminate]. injection H as <- <- <-. cbn [subst feval exact lpow].
    assert (E : IZR (c1 ^ Z.of_nat n) * rho ^ (n * m1) = (IZR c1 * rho ^ m1) ^ n).
    { rewrite Rpow_mult_distr, <- pow_IZR, Nat.mul_comm, pow_mult. reflexivity. }
    rewrite E, Nat.add_comm.
    apply (bounded_near 2 _ _ (feval A v (subst x1 x2 y1 y2 r1 r2 l2 z a e) ^ n)); [apply Hp|]. apply bounded_pow, IHe; reflexivity.
Qed.

End leaves.

Definition ptokens (d : nat) : list fx := polys d (tok 1) (tok 3) (tok 8) (tok 5) (tok 9).
Lemma ptokens_ok d x y z r a : (d <= 5)%nat -> polys d x y z r a = map (subst x x y y r r x z a) (ptokens d).
Proof. intros H. destruct d as [|[|[|[|[|[|d]]]]]]; try lia; reflexivity. Qed.

Definition poly_round7 (d : nat) : nat :=
  match d with 1%nat => 18 | 2%nat => 73 | 3%nat => 120 | 4%nat => 166 | _ => 207 end.
Lemma poly_checks7 d : (1 <= d <= 5)%nat ->
  forallb (fun q => match pe7 q with
                    | Some (k, (c, m)) => (k <=? poly_round7 d)%nat && (c <=? poly_z d)%Z && (m =? pdeg d)%nat
                    | None => false end) (tokens d) = true.
Proof. intros H. destruct d as [|[|[|[|[|[|d]]]]]]; try lia; vm_compute; reflexivity. Qed.
Lemma point_checks7 d : (1 <= d <= 5)%nat ->
  forallb (fun q => match pe7 q with
                    | Some (k, (c, m)) => (k <=? poly_round7 d)%nat && (c <=? cof d)%Z && (m =? S d)%nat
                    | None => false end) (ptokens d) = true.
Proof. intros H. destruct d as [|[|[|[|[|[|d]]]]]]; try lia; vm_compute; reflexivity. Qed.

Section edge.
Variables (pw : R -> nat -> R) (at2 : R -> R -> R) (p : R).
Hypotheses (Hw : good_pow pw) (Hpi : good_pi p).
Let A := b64x pw at2 p.
Let Hr : forall x, near 1 (rnd A x) x.
Proof. intros x. apply round_near. Qed.
Let Hp : forall x n, near 2 (lpow A x n) (x ^ n).
Proof. intros x n. apply pow_near, Hw. Qed.
Let Hpi' : near 1 (lpi A) PI.
Proof. apply pi_near, Hpi. Qed.

(** the height of an image *)
Lemma height_near v x k h : k = 0%Z \/ (0 <= pz x <= h) ->
  near 4 (feval A v (fx_z x k h)) (pz x + 2 * IZR k * h).
Proof.
  intros H. unfold fx_z. cbn [feval]. apply (near_trans 1 3 _ (pz x + rnd A (IZR (2 * k) * h))); [apply Hr|].
  rewrite mult_IZR. destruct H as [->|H].
  { rewrite Rmult_0_r, Rmult_0_l. destruct (Hr 0) as [t [-> _]]. rewrite Rmult_0_l. apply (near_weak 0); [lia|apply near_refl]. }
  destruct (Z.eq_dec k 0) as [->|K].
  { rewrite Rmult_0_r, Rmult_0_l. destruct (Hr 0) as [t [-> _]]. rewrite Rmult_0_l. apply (near_weak 0); [lia|apply near_refl]. }
  set (c := 2 * IZR k * h). destruct (Hr c) as [t [-> [L U]]]. rewrite pow_1 in L, U.
  destruct (Req_dec h 0) as [H0|H0].
  { assert (C : c = 0) by (unfold c; rewrite H0; ring). rewrite C, Rmult_0_l. apply (near_weak 0); [lia|apply near_refl]. }
  assert (Hh : 0 < h) by lra.
  assert (B : Rabs c <= 2 * Rabs (pz x + c)).
  { unfold c. destruct (Z_lt_le_dec 0 k) as [P|P].
    - apply (IZR_le 1) in P || (assert (P1 : (1 <= k)%Z) by lia; apply IZR_le in P1).
      assert (0 <= 2 * IZR k * h) by (apply Rmult_le_pos; [|lra]; apply (IZR_lt 0) in P; lra). rewrite !Rabs_pos_eq by lra. lra.
    - assert (P1 : (k <= -1)%Z) by lia. apply IZR_le in P1.
      assert (2 * IZR k * h <= -2 * h) by (apply Rmult_le_compat_r; lra). rewrite !Rabs_left1 by lra. lra. }
  set (y := pz x + c) in *.
  replace (pz x + c * t) with (y + c * (t - 1)) by (unfold y; ring).
  pose proof u_pos as U0.
  assert (U1 : u64 <= / 8) by (unfold u64; apply Rinv_le_contravar; [lra|]; replace 8 with (2 ^ 3) by lra; apply Rle_pow; [lra|lia]).
  assert (T : Rabs (t - 1) <= u64).
  { unfold w in *. apply Rabs_le. split; [|lra].
    assert (1 - u64 <= / (1 + u64)); [|lra]. apply Rmult_le_reg_r with (1 + u64); [lra|]. rewrite Rinv_l by lra. nra. }
  assert (D : Rabs (c * (t - 1)) <= 2 * u64 * Rabs y).
  { rewrite Rabs_mult. replace (2 * u64 * Rabs y) with (2 * Rabs y * u64) by ring. apply Rmult_le_compat; try apply Rabs_pos; assumption. }
  destruct (Req_dec y 0) as [Y|Y].
  { rewrite Y, Rabs_R0, Rmult_0_r in D. pose proof (Rabs_pos (c * (t - 1))).
    assert (E : c * (t - 1) = 0) by (destruct (Req_dec (c * (t - 1)) 0) as [|N]; [assumption|apply Rabs_pos_lt in N; lra]).
    rewrite E, Rplus_0_r. apply (near_weak 0); [lia|apply near_refl]. }
  exists (1 + c * (t - 1) / y). split; [field; exact Y|].
  assert (Q : Rabs (c * (t - 1) / y) <= 2 * u64).
  { unfold Rdiv. rewrite Rabs_mult, Rabs_inv. apply Rabs_pos_lt in Y. apply Rmult_le_reg_r with (Rabs y); [exact Y|].
    rewrite Rmult_assoc, Rinv_l by lra. lra. }
  apply Rabs_le_inv in Q. unfold w. cbn [pow]. split; [|nra].
  apply Rle_trans with (1 - 2 * u64); [|lra].
  apply Rmult_le_reg_r with ((1 + u64) * ((1 + u64) * ((1 + u64) * 1))); [nra|]. rewrite Rinv_l by nra. nra.
Qed.
Lemma dist_near v x (z : fx) q : near 4 (feval A v z) (pz x) ->
  near 7 (feval A v (fx_r (fx_x x q) (fx_y x q) z)) (dist x q).
Proof.
  intros NZ. unfold fx_r, dist. cbn [fx_x fx_y feval].
  pose proof (pow2_ge_0 (px x - fst q)). pose proof (pow2_ge_0 (py x - snd q)). pose proof (pow2_ge_0 (pz x)).
  apply (rnd_near A Hr), near_sqrt; [lra|]. apply (near_weak 11); [lia|].
  assert (S1 : forall a, near 4 (lpow A (rnd A a) 2) (a ^ 2)).
  { intros c. apply (near_trans 2 2 _ (rnd A c ^ 2)); [apply Hp|]. apply (near_pow 1), Hr. }
  apply (rnd_near A Hr). apply near_add; [lra|lra| |].
  - apply (near_weak 5); [lia|]. apply (rnd_near A Hr). apply near_add; [lra|lra|apply S1|apply S1].
  - apply (near_trans 2 8 _ (feval A v z ^ 2)); [apply Hp|]. apply (near_pow 4), NZ.
Qed.

Lemma image_edge d v x (z : fx) (q1 q2 : p2) (a : fx) c :
  (1 <= d <= 5)%nat -> 0 < Rabs (pz x) -> feval exact v z = pz x -> near 4 (feval A v z) (pz x) -> clear_of x (q1, q2) ->
  a = Volt /\ c = 1 \/ a = Mul (Num c) Volt ->
  let x1 := fx_x x q1 in let y1 := fx_y x q1 in let r1 := fx_r x1 y1 z in
  let x2 := fx_x x q2 in let y2 := fx_y x q2 in let r2 := fx_r x2 y2 z in
  forall e, In e (edge_fx d x1 x2 y1 y2 r1 r2 (fx_l2 x1 x2 y1 y2) z a) ->
  bounded (image_roundings d) (feval A v e) (feval exact v e) (Rabs v * (Rabs c * side_slope d x q1 q2)).
Proof.
  intros Hd Hz EZ NZ [Hs Hf] Hc x1 y1 r1 x2 y2 r2 e He. cbn [fst snd] in Hs, Hf.
  rewrite edge_entries in He by exact Hd. apply in_map_iff in He as (q & <- & Hq).
  pose proof (proj1 (forallb_forall _ _) (poly_checks7 d Hd) q Hq) as Ck. cbv beta in Ck.
  destruct (pe7 q) as [[k [co m]]|] eqn:Ep; [|discriminate].
  apply andb_prop in Ck as [Ck Cm]. apply andb_prop in Ck as [Ck Cc].
  apply Nat.leb_le in Ck. apply Z.leb_le in Cc. apply Nat.eqb_eq in Cm. subst m.
  set (l2 := fx_l2 x1 x2 y1 y2).
  assert (ER : forall q, feval exact v (fx_r (fx_x x q) (fx_y x q) z) = dist x q).
  { intros q'. unfold fx_r. cbn [feval exact rnd lpow]. change (feval (Arith (fun x => x) pow _ PI)) with (feval exact).
    rewrite EZ. reflexivity. }
  set (R1 := dist x q1). set (R2 := dist x q2). set (rho := far x q1 q2). set (L := spread x q1 q2) in *.
  set (X1 := px x - fst q1). set (Y1 := py x - snd q1). set (X2 := px x - fst q2). set (Y2 := py x - snd q2).
  assert (DZ : forall q, Rabs (pz x) <= dist x q).
  { intros q'. unfold dist. rewrite Rplus_comm, <- Rplus_assoc. apply comp_le. }
  pose proof (DZ q1) as Z1. fold R1 in Z1. pose proof (DZ q2) as Z2. fold R2 in Z2.
  assert (M1 : R1 <= rho) by apply Rmax_l. assert (M2 : R2 <= rho) by apply Rmax_r.
  assert (BX : forall q, Rabs (px x - fst q) <= dist x q /\ Rabs (py x - snd q) <= dist x q).
  { intros q'. split; unfold dist; [apply comp_le|]. rewrite (Rplus_comm (_ ^ 2) ((py x - snd q') ^ 2)). apply comp_le. }
  (* the variables *)
  assert (NR : near 7 (feval A v r1) R1 /\ near 7 (feval A v r2) R2) by (split; apply dist_near, NZ).
  destruct NR as [NR1 NR2].
  assert (N1 : forall e, In e [x1; x2; y1; y2; r1; r2; z] -> near 7 (feval A v e) (feval exact v e)).
  { assert (NX : forall e, cls e = Some 1%nat -> near 7 (feval A v e) (feval exact v e)).
    { intros e C. apply (near_weak 1); [lia|]. apply cls_near; assumption. }
    intros e He. repeat destruct He as [<-|He]; [apply NX; reflexivity..| | | |destruct He].
    - unfold r1, x1, y1. rewrite ER. exact NR1.
    - unfold r2, x2, y2. rewrite ER. exact NR2.
    - rewrite EZ. apply (near_weak 4); [lia|exact NZ]. }
  assert (B1 : forall e, In e [x1; x2; y1; y2; r1; r2; z] -> bounded 7 (feval A v e) (feval exact v e) rho).
  { intros e He. apply (bounded_size _ _ _ (Rabs (feval exact v e))).
    - destruct (BX q1) as [a1 a2]. destruct (BX q2) as [a3 a4]. fold R1 in a1, a2. fold R2 in a3, a4.
      repeat destruct He as [<-|He]; [..|destruct He]; unfold r1, r2, x1, x2, y1, y2; rewrite ?ER, ?EZ; cbn [fx_x fx_y feval exact rnd].
      all: fold R1 R2; try (rewrite Rabs_pos_eq by lra); try lra.
    - apply near_bounded, N1, He. }
  assert (B2 : bounded 7 (feval A v l2) (feval exact v l2) (8 * rho ^ 2)).
  { assert (Bx : forall e, In e [x1; x2; y1; y2] -> bounded 1 (feval A v e) (feval exact v e) rho).
    { intros e He. split; [|apply B1; cbn in *; tauto].
      eapply Rle_trans; [apply (near_abs 1), cls_near; try assumption; repeat destruct He as [<-|He]; [reflexivity..|destruct He]|].
      apply Rmult_le_compat_l; [apply gam_pos|]. apply B1. cbn in *; tauto. }
    assert (Bd : forall e e', In e [x1; x2; y1; y2] -> In e' [x1; x2; y1; y2] ->
      bounded 6 (feval A v (Pow (Sub e e') 2)) (feval exact v (Pow (Sub e e') 2)) ((2 * rho) ^ 2)).
    { intros e e' I I'. cbn [feval exact rnd lpow]. apply (bounded_near 2 4 _ (rnd A (feval A v e - feval A v e') ^ 2)); [apply Hp|].
      apply (bounded_pow 2). apply (bounded_rnd A Hr). replace (2 * rho) with (rho + rho) by ring. unfold Rminus.
      apply bounded_add; [apply Bx, I|apply bounded_opp, Bx, I']. }
    unfold l2, fx_l2. replace (8 * rho ^ 2) with ((2 * rho) ^ 2 + (2 * rho) ^ 2) by ring.
    cbn [feval exact rnd]. apply (bounded_rnd A Hr), bounded_add; apply Bd; cbn; tauto. }
  assert (Rho : 0 < rho) by lra.
  pose proof (pe7_bounded x1 x2 y1 y2 r1 r2 l2 z a A Hr Hp v rho B1 B2 q k co _ Ep) as BP.
  apply (bounded_weak _ (poly_round7 d)) in BP; [|exact Ck].
  assert (PR : forall n, 0 < rho ^ n) by (intros n; apply pow_lt, Rho).
  apply (bounded_size _ _ _ _ (poly_amp d * rho ^ pdeg d)) in BP.
  2:{ rewrite <- poly_amp_z. apply Rmult_le_compat_r; [left; apply PR|]. apply IZR_le, Cc. }
  (* the distances *)
  assert (NS : near 8 (feval A v (Add r1 r2)) (R1 + R2)).
  { cbn [feval]. apply (rnd_near A Hr). apply near_add; lra || assumption. }
  assert (NM : near 15 (feval A v (Mul r1 r2)) (R1 * R2)).
  { cbn [feval]. apply (rnd_near A Hr). apply (near_mul 7 7); assumption. }
  assert (BL : bounded 19 (feval A v (spread_fx r1 r2 l2)) L (12 * rho ^ 2)).
  { unfold L, spread, spread_fx. fold R1 R2. cbn [feval]. apply (bounded_rnd A Hr).
    replace (12 * rho ^ 2) with ((2 * rho) ^ 2 + 8 * rho ^ 2) by ring. unfold Rminus at 1 2. apply bounded_add.
    - apply (bounded_size _ _ _ (Rabs ((R1 + R2) ^ 2))).
      + rewrite Rabs_pos_eq by apply pow2_ge_0. apply pow_incr. lra.
      + apply near_bounded. change 18%nat with (2 + 2 * 8)%nat. eapply near_trans; [apply Hp|]. apply near_pow, NS.
    - apply bounded_opp, (bounded_weak 7); [lia|].
      replace ((fst q1 - fst q2) ^ 2 + (snd q1 - snd q2) ^ 2) with (feval exact v l2); [exact B2|].
      unfold l2, fx_l2, x1, x2, y1, y2. cbn [fx_x fx_y feval exact rnd lpow]. ring. }
  assert (G13 : gam 19 * (12 * rho ^ 2) <= L / 2).
  { pose proof u_pos as U0.
    assert (U : u64 <= 1 / 10 ^ 15 * (112 / 1000)).
    { unfold u64. apply Rmult_le_reg_l with (2 ^ 53); [apply pow_lt; lra|]. rewrite Rinv_r by (apply pow_nonzero; lra). lra. }
    assert (I13 : INR 19 = 19) by (cbn; lra).
    pose proof (gam_linear 19) as G. rewrite I13 in G. specialize (G ltac:(lra)).
    apply Rle_trans with (2 * (19 * u64) * (12 * (10 ^ 12 * L))); [|nra].
    apply Rmult_le_compat; [apply gam_pos|pose proof (PR 2%nat); lra|exact G|]. apply Rmult_le_compat_l; [lra|exact Hf]. }
  assert (NA : near 1 (feval A v a) (v * c)).
  { destruct Hc as [[-> ->]| ->]; cbn [feval].
    - rewrite Rmult_1_r. apply (near_weak 0); [lia|]. apply near_refl.
    - rewrite Rmult_comm. apply Hr. }
  pose (E := match d with 1%nat => v * c * (R1 + R2) / (R1 * R2) / PI | _ => v * c / (R1 * R2) ^ (2 * d - 1) / PI end).
  pose (jn := match d with 1%nat => 29%nat | _ => (15 * (2 * d - 1) + 9)%nat end).
  assert (PPI := PI_RGT_0).
  assert (R12 : 0 < R1 * R2) by (apply Rmult_lt_0_compat; lra).
  (* the factor of all entries *)
  set (G' := feval A v (spread_fx r1 r2 l2)) in *.
  assert (GP : 0 < G') by (destruct BL as [BL _]; apply Rabs_le_inv in BL; lra).
  assert (NN : near jn (feval A v (edge_n r1 r2 l2 a d)) (E * / G' ^ d)).
  { destruct d as [|[|d]]; [lia| |].
    - unfold edge_n, jn, E. cbn [feval]. fold (feval A v (Add r1 r2)). fold G'.
      replace (v * c * (R1 + R2) / (R1 * R2) / PI * / G' ^ 1) with (v * c * (R1 + R2) / (R1 * R2 * G') / PI) by (field; lra).
      apply (rnd_near A Hr). apply (near_div 27 1); [|exact Hpi'].
      apply (rnd_near A Hr). apply (near_div 10 16).
      + apply (rnd_near A Hr). apply (near_mul 1 8); assumption.
      + apply (rnd_near A Hr). apply (near_mul 15 0); [exact NM|apply near_refl].
    - set (D := S (S d)) in *.
      assert (EE : edge_n r1 r2 l2 a D = Div (Div (Div a (Pow (Mul r1 r2) (2 * D - 1))) (Pow (spread_fx r1 r2 l2) D)) Pi) by reflexivity.
      rewrite EE. unfold jn, E. change (match D with 1%nat => 29%nat | _ => (15 * (2 * D - 1) + 9)%nat end) with (15 * (2 * D - 1) + 9)%nat.
      change (match D with 1%nat => v * c * (R1 + R2) / (R1 * R2) / PI | _ => v * c / (R1 * R2) ^ (2 * D - 1) / PI end)
        with (v * c / (R1 * R2) ^ (2 * D - 1) / PI).
      clearbody D. set (n := (2 * D - 1)%nat).
      replace (v * c / (R1 * R2) ^ n / PI * / G' ^ D) with (v * c / (R1 * R2) ^ n / G' ^ D / PI) by (field; repeat split; try apply pow_nonzero; lra).
      change (feval A v (Div (Div (Div a (Pow (Mul r1 r2) n)) (Pow (spread_fx r1 r2 l2) D)) Pi))
        with (rnd A (rnd A (rnd A (feval A v a / lpow A (feval A v (Mul r1 r2)) n) / lpow A G' D) / lpi A)).
      replace (15 * n + 9)%nat with (S (S (S (1 + (2 + n * 15)) + 2) + 1))%nat by lia.
      apply (rnd_near A Hr), near_div; [|exact Hpi'].
      apply (rnd_near A Hr), near_div; [|apply Hp].
      apply (rnd_near A Hr), near_div; [exact NA|].
      eapply near_trans; [apply Hp|]. apply near_pow, NM. }
  pose proof (inv_pow_bounded 19 G' L (12 * rho ^ 2) d Hs BL G13) as BI.
  assert (BE : bounded 0 E E (Rabs E)) by apply near_bounded, near_refl.
  pose proof (bounded_mul 0 19 _ _ _ _ _ _ BE BI) as BN.
  apply (bounded_near jn (0 + 19) _ _ _ _ NN) in BN.
  assert (VN : feval exact v (edge_n r1 r2 l2 a d) = E * / L ^ d).
  { assert (VA : feval exact v a = v * c) by (destruct Hc as [[-> ->]| ->]; cbn [feval exact rnd]; ring).
    assert (V1 : feval exact v r1 = R1) by apply ER. assert (V2 : feval exact v r2 = R2) by apply ER.
    assert (VL : feval exact v (spread_fx r1 r2 l2) = L).
    { unfold L, spread, spread_fx. fold R1 R2. cbn [feval exact rnd lpow]. change (feval (Arith (fun x => x) pow _ PI)) with (feval exact).
      rewrite V1, V2. unfold l2, fx_l2, x1, x2, y1, y2. cbn [fx_x fx_y feval exact rnd lpow]. ring. }
    assert (LN : L <> 0) by lra.
    destruct d as [|[|d]]; [lia| |].
    - unfold edge_n, E. 
      change (feval exact v (Div (Div (Mul a (Add r1 r2)) (Mul (Mul r1 r2) (spread_fx r1 r2 l2))) Pi))
        with (feval exact v a * (feval exact v r1 + feval exact v r2) / (feval exact v r1 * feval exact v r2 * feval exact v (spread_fx r1 r2 l2)) / PI).
      rewrite VA, V1, V2, VL. field. repeat split; lra.
    - unfold edge_n, E.
      change (feval exact v (Div (Div (Div a (Pow (Mul r1 r2) (2 * S (S d) - 1))) (Pow (spread_fx r1 r2 l2) (S (S d)))) Pi))
        with (feval exact v a / (feval exact v r1 * feval exact v r2) ^ (2 * S (S d) - 1) / feval exact v (spread_fx r1 r2 l2) ^ S (S d) / PI).
      rewrite VA, V1, V2, VL. set (n := (2 * S (S d) - 1)%nat). clearbody n. set (D := S (S d)). clearbody D.
      field. repeat split; try apply pow_nonzero; lra. }
  rewrite <- VN in BN.
  pose proof (bounded_mul _ _ _ _ _ _ _ _ BP BN) as BF. apply (bounded_rnd A Hr) in BF.
  change (bounded (image_roundings d) (rnd A (feval A v (subst x1 x2 y1 y2 r1 r2 l2 z a q) * feval A v (edge_n r1 r2 l2 a d)))
    (feval exact v (subst x1 x2 y1 y2 r1 r2 l2 z a q) * feval exact v (edge_n r1 r2 l2 a d)) (Rabs v * (Rabs c * side_slope d x q1 q2))).
  eapply bounded_size; [|eapply bounded_weak; [|exact BF]].
  2:{ unfold jn. clear -Hd. destruct d as [|[|[|[|[|[|d]]]]]]; try lia; cbn; lia. }
  (* the size *)
  unfold side_slope. fold rho L R1 R2.
  assert (P12 : 12 <= 4 * PI) by (pose proof PI2_3_2; lra).
  assert (AE : Rabs E <= Rabs v * Rabs c * (if (d =? 1)%nat then 2 * rho else 1) / ((R1 * R2) ^ (2 * d - 1) * PI)).
  { rewrite <- Rabs_mult. set (n := (2 * d - 1)%nat) in *.
    assert (PN : forall n, 0 < (R1 * R2) ^ n) by (intros n0; apply pow_lt, R12).
    assert (PI2 : 0 < / PI) by (apply Rinv_0_lt_compat; lra).
    destruct d as [|[|d]]; [lia| |].
    - subst n. cbn [Nat.eqb Nat.mul Nat.add Nat.sub]. unfold E. clear -Z1 Z2 M1 M2 Hz PPI PI2 R12.
      unfold Rdiv. rewrite pow_1, !Rinv_mult, !Rabs_mult, !Rabs_inv.
      rewrite (Rabs_pos_eq PI), (Rabs_pos_eq R1), (Rabs_pos_eq R2), (Rabs_pos_eq (R1 + R2)) by lra.
      assert (0 < / R1) by (apply Rinv_0_lt_compat; lra). assert (0 < / R2) by (apply Rinv_0_lt_compat; lra).
      rewrite <- !Rmult_assoc. repeat (apply Rmult_le_compat_r; [lra|]).
      rewrite !(Rmult_assoc (Rabs v * Rabs c)). apply Rmult_le_compat_l; [apply Rmult_le_pos; apply Rabs_pos|lra].
    - change (S (S d) =? 1)%nat with false. unfold E. fold n. clearbody n.
      change (match S (S d) with 1%nat => v * c * (R1 + R2) / (R1 * R2) / PI | _ => v * c / (R1 * R2) ^ n / PI end) with (v * c / (R1 * R2) ^ n / PI).
      right. unfold Rdiv. rewrite !Rabs_mult, !Rabs_inv, (Rabs_pos_eq PI), (Rabs_pos_eq ((R1 * R2) ^ n)) by (lra || (left; apply PN)).
      rewrite Rinv_mult. ring. }
  set (n := (2 * d - 1)%nat) in *.
  assert (PN : 0 < / (R1 * R2) ^ n) by (apply Rinv_0_lt_compat, pow_lt, R12).
  assert (PL : 0 < / L ^ (d + 1)) by (apply Rinv_0_lt_compat, pow_lt, Hs).
  assert (PPA : 0 < poly_amp d) by (unfold poly_amp; destruct d as [|[|[|[|[|d']]]]]; lra).
  assert (P2 : 0 < 2 ^ (d + 1)) by (apply pow_lt; lra).
  assert (VC : 0 <= Rabs v * Rabs c) by (apply Rmult_le_pos; apply Rabs_pos).
  set (f := if (d =? 1)%nat then 2 * rho else 1) in *.
  assert (F0 : 0 < f) by (unfold f; destruct (d =? 1)%nat; lra).
  apply Rle_trans with (poly_amp d * rho ^ pdeg d * ((Rabs v * Rabs c * f / ((R1 * R2) ^ n * PI)) * (2 ^ (d + 1) * (12 * rho ^ 2) / L ^ (d + 1)))).
  { apply Rmult_le_compat_l; [apply Rmult_le_pos; [lra|left; apply PR]|]. apply Rmult_le_compat_r; [|exact AE].
    apply Rmult_le_pos; [|lra]. apply Rmult_le_pos; [lra|]. pose proof (PR 2%nat). lra. }
  assert (SA : poly_amp d * 2 ^ (d + 1) * 4 * (f * rho ^ pdeg d * rho ^ 2) = side_amp d * rho ^ (5 * d)).
  { unfold f. clear -Hd. destruct d as [|[|[|[|[|[|d]]]]]]; try lia; cbn [Nat.eqb pdeg poly_amp side_amp Nat.mul Nat.add Nat.sub]; ring. }
  replace (Rabs v * (Rabs c * (side_amp d * rho ^ (5 * d) / ((R1 * R2) ^ n * L ^ (d + 1)))))
    with (Rabs v * Rabs c * (side_amp d * rho ^ (5 * d)) * (/ (R1 * R2) ^ n * / L ^ (d + 1)))
    by (unfold Rdiv; rewrite (Rinv_mult ((R1 * R2) ^ n)); ring).
  rewrite <- SA.
  replace (poly_amp d * rho ^ pdeg d * (Rabs v * Rabs c * f / ((R1 * R2) ^ n * PI) * (2 ^ (d + 1) * (12 * rho ^ 2) / L ^ (d + 1))))
    with (Rabs v * Rabs c * (poly_amp d * 2 ^ (d + 1) * (12 / PI) * (f * rho ^ pdeg d * rho ^ 2)) * (/ (R1 * R2) ^ n * / L ^ (d + 1)))
    by (unfold Rdiv; rewrite (Rinv_mult ((R1 * R2) ^ n)); ring).
  apply Rmult_le_compat_r; [apply Rmult_le_pos; lra|]. apply Rmult_le_compat_l; [exact VC|].
  apply Rmult_le_compat_r; [apply Rmult_le_pos; [apply Rmult_le_pos; [lra|left; apply PR]|left; apply PR]|].
  apply Rmult_le_compat_l; [apply Rmult_le_pos; lra|].
  apply Rmult_le_reg_r with PI; [lra|]. unfold Rdiv. rewrite Rmult_assoc, Rinv_l by lra. lra.
Qed.

Lemma image_pixel d v x (z : fx) (q : p2) c :
  (1 <= d <= 5)%nat -> 0 < Rabs (pz x) -> feval exact v z = pz x -> near 4 (feval A v z) (pz x) ->
  forall e, In e (point_fx d (fx_x x q) (fx_y x q) z (fx_r (fx_x x q) (fx_y x q) z) (Mul (Num c) Volt)) ->
  bounded (image_roundings d) (feval A v e) (feval exact v e) (Rabs v * (amp d * (Rabs c / (2 * PI * dist x q ^ (d + 2))))).
Proof.
  intros Hd Hz EZ NZ e He. set (X := fx_x x q) in *. set (Y := fx_y x q) in *. set (r := fx_r X Y z) in *. set (a := Mul (Num c) Volt) in *.
  assert (Hd5 : (d <= 5)%nat) by lia.
  rewrite (point_entries d X Y z r a Hd5), (ptokens_ok d X Y z r a Hd5), map_map in He. apply in_map_iff in He as (t & <- & Ht).
  pose proof (proj1 (forallb_forall _ _) (point_checks7 d Hd) t Ht) as Ck. cbv beta in Ck.
  destruct (pe7 t) as [[k [co m]]|] eqn:Ep; [|discriminate].
  apply andb_prop in Ck as [Ck Cm]. apply andb_prop in Ck as [Ck Cc].
  apply Nat.leb_le in Ck. apply Z.leb_le in Cc. apply Nat.eqb_eq in Cm. subst m.
  assert (ER : feval exact v r = dist x q).
  { unfold r, fx_r. cbn [feval exact rnd lpow]. change (feval (Arith (fun x => x) pow _ PI)) with (feval exact).
    rewrite EZ. reflexivity. }
  set (rho := dist x q) in *.
  assert (DZ : Rabs (pz x) <= rho) by (unfold rho, dist; rewrite Rplus_comm, <- Rplus_assoc; apply comp_le).
  assert (DX : Rabs (px x - fst q) <= rho) by apply comp_le.
  assert (DY : Rabs (py x - snd q) <= rho) by (unfold rho, dist; rewrite (Rplus_comm (_ ^ 2) ((py x - snd q) ^ 2)); apply comp_le).
  assert (Rho : 0 < rho) by lra. assert (PPI := PI_RGT_0).
  assert (NR : near 7 (feval A v r) rho) by (apply dist_near, NZ).
  assert (NX : forall e, cls e = Some 1%nat -> near 7 (feval A v e) (feval exact v e)).
  { intros e C. apply (near_weak 1); [lia|]. apply cls_near; assumption. }
  assert (B1 : forall e, In e [X; X; Y; Y; r; r; z] -> bounded 7 (feval A v e) (feval exact v e) rho).
  { intros e He. apply (bounded_size _ _ _ (Rabs (feval exact v e))).
    - repeat destruct He as [<-|He]; [exact DX|exact DX|exact DY|exact DY| | | |destruct He].
      + rewrite ER, Rabs_pos_eq by lra. lra.
      + rewrite ER, Rabs_pos_eq by lra. lra.
      + rewrite EZ. exact DZ.
    - apply near_bounded. repeat destruct He as [<-|He]; [apply NX; reflexivity..| | | |destruct He].
      + rewrite ER. exact NR.
      + rewrite ER. exact NR.
      + rewrite EZ. apply (near_weak 4); [lia|exact NZ]. }
  assert (R2 : rho <= 8 * rho ^ 2 \/ True) by auto. clear R2.
  pose (K := Lit 0).
  assert (B2 : bounded 7 (feval A v K) (feval exact v K) (8 * rho ^ 2)).
  { unfold K. cbn [feval exact]. pose proof (pow_lt rho 2 Rho). pose proof (gam_pos 7).
    split; rewrite ?Rminus_0_r, Rabs_R0; [apply Rmult_le_pos|]; lra. }
  assert (SB : subst X X Y Y r r X z a t = subst X X Y Y r r K z a t).
  { clear -Hd Ht. destruct d as [|[|[|[|[|[|d]]]]]]; try lia; cbn in Ht; repeat destruct Ht as [<-|Ht]; try destruct Ht; reflexivity. }
  rewrite SB.
  pose proof (pe7_bounded X X Y Y r r K z a A Hr Hp v rho B1 B2 t k co _ Ep) as BP.
  apply (bounded_weak _ (poly_round7 d)) in BP; [|exact Ck].
  assert (PR : forall n, 0 < rho ^ n) by (intros n; apply pow_lt, Rho).
  apply (bounded_size _ _ _ _ (IZR (cof d) * rho ^ S d)) in BP.
  2:{ apply Rmult_le_compat_r; [left; apply PR|]. apply IZR_le, Cc. }
  assert (NA : near 1 (feval A v a) (feval exact v a)) by (cbn [a feval exact rnd]; apply Hr).
  assert (NN : near (8 + 7 * (S d + (d + 2))) (feval A v (nfx d r a)) (feval exact v (nfx d r a))).
  { assert (N2 : near 2 (rnd A (2 * lpi A)) (2 * PI)).
    { apply (rnd_near A Hr). apply (near_mul 0 1); [apply near_refl|exact Hpi']. }
    assert (N3 : forall f, near 3 (rnd A (rnd A (2 * lpi A) / f)) (2 * PI / f)).
    { intros f. apply (rnd_near A Hr). apply (near_div 2 0); [exact N2|apply near_refl]. }
    assert (N4 : forall n, near (2 + n * 7) (lpow A (feval A v r) n) (feval exact v r ^ n)).
    { intros n. eapply near_trans; [apply Hp|]. apply near_pow. rewrite ER. exact NR. }
    assert (N5 : forall n g g', near 3 g g' ->
      near (8 + 7 * n) (rnd A (feval A v a / rnd A (g * lpow A (feval A v r) n))) (feval exact v a / (g' * feval exact v r ^ n))).
    { intros n g g' G. replace (8 + 7 * n)%nat with (S (1 + S (3 + (2 + n * 7))))%nat by lia.
      apply (rnd_near A Hr), near_div; [exact NA|]. apply (rnd_near A Hr), near_mul; [exact G|apply N4]. }
    destruct d as [|[|[|[|[|[|d]]]]]]; try lia; cbn [nfx Nat.add].
    - apply (N5 5%nat (rnd A (2 * lpi A)) (2 * PI)). apply (near_weak 2); [lia|exact N2].
    - apply (N5 7%nat _ _ (N3 3)).
    - apply (N5 9%nat _ _ (N3 3)).
    - apply (N5 11%nat _ _ (N3 15)).
    - apply (N5 13%nat _ _ (N3 45)). }
  pose proof (bounded_mul _ _ _ _ _ _ _ _ BP (near_bounded _ _ _ NN)) as BF. apply (bounded_rnd A Hr) in BF.
  change (bounded (image_roundings d) (rnd A (feval A v (subst X X Y Y r r K z a t) * feval A v (nfx d r a)))
    (feval exact v (subst X X Y Y r r K z a t) * feval exact v (nfx d r a)) (Rabs v * (amp d * (Rabs c / (2 * PI * rho ^ (d + 2)))))).
  eapply bounded_size; [|eapply bounded_weak; [|exact BF]].
  2:{ clear -Hd. destruct d as [|[|[|[|[|[|d]]]]]]; try lia; cbn; lia. }
  rewrite (nfx_exact d v r a Hd5) by (rewrite ER; exact Rho). rewrite ER.
  assert (EA : Rabs (feval exact v a) = Rabs v * Rabs c) by (cbn [a feval exact rnd]; rewrite Rabs_mult; ring).
  rewrite EA. right.
  assert (AM : amp d = IZR (cof d) * IZR (fac d)) by (clear -Hd; destruct d as [|[|[|[|[|[|d]]]]]]; try lia; cbn; lra).
  rewrite AM, (pow_add rho (S d) (d + 2)). field. repeat split; try apply pow_nonzero; lra.
Qed.
End edge.
