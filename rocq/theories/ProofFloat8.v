(** Proof of C181: the rounding error of the derivatives of one edge of an electrode. *)
From Flocq Require Import Core.
From Verif Require Import Base ModelExpr ModelField ModelFloat ModelFloatExpr ModelFloatField SpecFloat SpecFloat2 SpecFloat3
  ProofFloat ProofFloat2 ProofFloat3 ProofFloat4 ProofFloat5 ProofFloat6.
Import ListNotations.
Open Scope R_scope.

(** ** The polynomials of an edge, with literals in place of the variables *)
Definition tok (i : Z) : fx := Lit (1000000 + i).
Definition tokens (d : nat) : list fx :=
  map left_of (edge_fx d (tok 1) (tok 2) (tok 3) (tok 4) (tok 5) (tok 6) (tok 7) (tok 8) (tok 9)).
Section leaves.
Variables (x1 x2 y1 y2 r1 r2 l2 z a : fx).
Definition leaf (i : Z) : fx :=
  match i with
  | 1 => x1 | 2 => x2 | 3 => y1 | 4 => y2 | 5 => r1 | 6 => r2 | 7 => l2 | 8 => z | _ => a
  end%Z.
Fixpoint subst (e : fx) : fx :=
  match e with
  | Lit k => if (k <? 1000000)%Z then Lit k else leaf (k - 1000000)
  | Add a b => Add (subst a) (subst b)
  | Sub a b => Sub (subst a) (subst b)
  | Mul a b => Mul (subst a) (subst b)
  | Pow a n => Pow (subst a) n
  | Neg a => Neg (subst a)
  | _ => e
  end.
Definition spread_fx : fx := Sub (Pow (Add r1 r2) 2) l2.
Definition edge_n (d : nat) : fx :=
  match d with
  | 1%nat => Div (Div (Mul a (Add r1 r2)) (Mul (Mul r1 r2) spread_fx)) Pi
  | _ => Div (Div (Div a (Pow (Mul r1 r2) (2 * d - 1))) (Pow spread_fx d)) Pi
  end.
Lemma edge_entries d : (1 <= d <= 5)%nat ->
  edge_fx d x1 x2 y1 y2 r1 r2 l2 z a = map (fun q => Mul (subst q) (edge_n d)) (tokens d).
Proof. intros H. destruct d as [|[|[|[|[|[|d]]]]]]; try lia; reflexivity. Qed.

(** roundings, coefficient and degree of a polynomial *)
Fixpoint pe (e : fx) : option (nat * (Z * nat)) :=
  match e with
  | Lit z =>
      if (z <? 1000000)%Z then Some (0%nat, (Z.abs z, 0%nat))
      else if (z =? 1000007)%Z then Some (7%nat, (8%Z, 2%nat))
      else if ((1000000 <? z) && (z <? 1000009))%Z then Some (4%nat, (1%Z, 1%nat)) else None
  | Add a b | Sub a b =>
      match pe a, pe b with
      | Some (j, (c, m)), Some (k, (c', n)) => if (m =? n)%nat then Some (S (Nat.max j k), ((c + c')%Z, m)) else None
      | _, _ => None
      end
  | Mul a b =>
      match pe a, pe b with
      | Some (j, (c, m)), Some (k, (c', n)) => Some (S (j + k), ((c * c')%Z, (m + n)%nat))
      | _, _ => None
      end
  | Pow a n => match pe a with Some (k, (c, m)) => Some ((n * k + 2)%nat, ((c ^ Z.of_nat n)%Z, (n * m)%nat)) | None => None end
  | Neg a => pe a
  | _ => None
  end.

Variable A : arith.
Hypothesis Hr : forall x, near 1 (rnd A x) x.
Hypothesis Hp : forall x n, near 2 (lpow A x n) (x ^ n).
Hypothesis Hpi : near 1 (lpi A) PI.
Variables v rho : R.
Hypothesis Hrho : 0 <= rho.
Hypothesis H1 : forall e, In e [x1; x2; y1; y2; r1; r2; z] -> bounded 4 (feval A v e) (feval exact v e) rho.
Hypothesis H2 : bounded 7 (feval A v l2) (feval exact v l2) (8 * rho ^ 2).

Lemma bounded_pow k f e m n : bounded k f e m -> bounded (n * k) (f ^ n) (e ^ n) (m ^ n).
Proof.
  intros H. induction n as [|n IH]; cbn [pow Nat.mul].
  - split; [rewrite Rminus_diag_eq, Rabs_R0 by reflexivity; pose proof (gam_pos 0); lra|rewrite Rabs_R1; lra].
  - apply bounded_mul; assumption.
Qed.
Lemma pe_bounded e : forall k c m, pe e = Some (k, (c, m)) ->
  bounded k (feval A v (subst e)) (feval exact v (subst e)) (IZR c * rho ^ m).
Proof.
  induction e; intros k c m H; cbn [pe] in H; try discriminate.
  - cbn [subst]. destruct (Z.ltb_spec z0 1000000).
    + injection H as <- <- <-. cbn [feval exact]. rewrite Rmult_1_r, abs_IZR.
      split; [rewrite Rminus_diag_eq, Rabs_R0 by reflexivity|apply Rle_refl].
      apply Rmult_le_pos; [apply gam_pos|apply Rabs_pos].
    + destruct (Z.eqb_spec z0 1000007) as [->|N].
      * injection H as <- <- <-. exact H2.
      * destruct (Z.ltb_spec 1000000 z0); [|discriminate]. destruct (Z.ltb_spec z0 1000009); [|discriminate]. cbn [andb] in H. injection H as <- <- <-. rewrite pow_1, Rmult_1_l.
        assert (C : (z0 = 1000001 \/ z0 = 1000002 \/ z0 = 1000003 \/ z0 = 1000004 \/ z0 = 1000005 \/ z0 = 1000006 \/ z0 = 1000008)%Z) by lia.
        repeat destruct C as [C|C]; subst z0; apply H1; cbn; tauto.
  - destruct (pe e1) as [[j [c1 m1]]|]; [|discriminate]. destruct (pe e2) as [[k2 [c2 m2]]|]; [|discriminate].
    destruct (Nat.eqb_spec m1 m2) as [<-|]; [|discriminate]. injection H as <- <- <-.
    cbn [subst feval exact rnd]. rewrite plus_IZR, Rmult_plus_distr_r. apply (bounded_rnd A Hr), bounded_add.
    + apply (bounded_weak j); [lia|]. apply IHe1; reflexivity.
    + apply (bounded_weak k2); [lia|]. apply IHe2; reflexivity.
  - destruct (pe e1) as [[j [c1 m1]]|]; [|discriminate]. destruct (pe e2) as [[k2 [c2 m2]]|]; [|discriminate].
    destruct (Nat.eqb_spec m1 m2) as [<-|]; [|discriminate]. injection H as <- <- <-.
    cbn [subst feval exact rnd]. rewrite plus_IZR, Rmult_plus_distr_r. apply (bounded_rnd A Hr). unfold Rminus. apply bounded_add.
    + apply (bounded_weak j); [lia|]. apply IHe1; reflexivity.
    + apply bounded_opp, (bounded_weak k2); [lia|]. apply IHe2; reflexivity.
  - destruct (pe e1) as [[j [c1 m1]]|]; [|discriminate]. destruct (pe e2) as [[k2 [c2 m2]]|]; [|discriminate].
    injection H as <- <- <-. cbn [subst feval exact rnd]. apply (bounded_rnd A Hr).
    rewrite mult_IZR, pow_add. replace (IZR c1 * IZR c2 * (rho ^ m1 * rho ^ m2)) with ((IZR c1 * rho ^ m1) * (IZR c2 * rho ^ m2)) by ring.
    apply bounded_mul; [apply IHe1|apply IHe2]; reflexivity.
  - cbn [subst feval]. apply bounded_opp, IHe, H.
  - destruct (pe e) as [[j [c1 m1]]|]; [|discriminate]. injection H as <- <- <-. cbn [subst feval exact lpow].
    assert (E : IZR (c1 ^ Z.of_nat n) * rho ^ (n * m1) = (IZR c1 * rho ^ m1) ^ n).
    { rewrite Rpow_mult_distr, <- pow_IZR, Nat.mul_comm, pow_mult. reflexivity. }
    rewrite E, Nat.add_comm.
    apply (bounded_near 2 _ _ (feval A v (subst e) ^ n)); [apply Hp|]. apply bounded_pow, IHe; reflexivity.
Qed.

(** dividing by a power of something small but not lost *)
Lemma inv_pow_bounded k g L M d : 0 < L -> bounded k g L M -> gam k * M <= L / 2 ->
  bounded k (/ g ^ d) (/ L ^ d) (2 ^ (d + 1) * M / L ^ (d + 1)).
Proof.
  intros HL [E B] G. rewrite Rabs_pos_eq in B by lra.
  assert (G1 : L / 2 <= g) by (apply Rabs_le_inv in E; lra).
  assert (GP : 0 < g) by lra. pose proof (gam_pos k) as GK.
  assert (IL : 0 < / L) by (apply Rinv_0_lt_compat; exact HL).
  assert (IG : 0 < / g) by (apply Rinv_0_lt_compat; exact GP).
  assert (IG2 : / g <= 2 * / L).
  { apply Rmult_le_reg_r with g; [exact GP|]. rewrite Rinv_l by lra.
    apply Rmult_le_reg_l with L; [exact HL|]. replace (L * (2 * / L * g)) with (2 * g) by (field; lra). lra. }
  assert (D1 : Rabs (/ g - / L) <= 2 * (gam k * M) * / L * / L).
  { replace (/ g - / L) with ((L - g) * (/ g * / L)) by (field; lra).
    rewrite Rabs_mult, Rabs_minus_sym, (Rabs_pos_eq (/ g * / L)) by (apply Rmult_le_pos; lra).
    replace (2 * (gam k * M) * / L * / L) with (gam k * M * (2 * / L * / L)) by ring.
    apply Rmult_le_compat; [apply Rabs_pos|apply Rmult_le_pos; lra|exact E|]. apply Rmult_le_compat_r; lra. }
  assert (GM : 0 <= gam k * M) by (apply Rmult_le_pos; lra).
  assert (I : forall n, Rabs ((/ g) ^ n - (/ L) ^ n) <= (2 ^ (n + 1) - 2) * (gam k * M) * (/ L) ^ (n + 1)).
  { induction n as [|n IH]; [cbn; rewrite Rminus_diag_eq, Rabs_R0 by reflexivity; lra|].
    replace ((/ g) ^ S n - (/ L) ^ S n) with (/ g * ((/ g) ^ n - (/ L) ^ n) + (/ g - / L) * (/ L) ^ n) by (cbn [pow]; ring).
    eapply Rle_trans; [apply Rabs_triang|]. rewrite !Rabs_mult, (Rabs_pos_eq (/ g)), (Rabs_pos_eq ((/ L) ^ n)) by (try apply pow_le; lra).
    assert (LN : 0 <= (/ L) ^ n) by (apply pow_le; lra).
    assert (T : 0 <= 2 ^ (n + 1) - 2).
    { rewrite Nat.add_1_r. cbn [pow]. pose proof (pow_R1_Rle 2 n ltac:(lra)). lra. }
    replace ((2 ^ (S n + 1) - 2) * (gam k * M) * (/ L) ^ (S n + 1))
      with (2 * / L * ((2 ^ (n + 1) - 2) * (gam k * M) * (/ L) ^ (n + 1)) + 2 * (gam k * M) * / L * / L * (/ L) ^ n)
      by (rewrite !Nat.add_1_r; cbn [pow]; ring).
    apply Rplus_le_compat.
    - apply Rmult_le_compat; [lra|apply Rabs_pos|exact IG2|exact IH].
    - apply Rmult_le_compat_r; [exact LN|exact D1]. }
  assert (ILd : forall n, 0 < (/ L) ^ n) by (intros n; apply pow_lt, IL).
  assert (EQ : 2 ^ (d + 1) * M / L ^ (d + 1) = 2 ^ (d + 1) * M * (/ L) ^ (d + 1)) by (unfold Rdiv; rewrite pow_inv; reflexivity).
  assert (P2 : 1 <= 2 ^ (d + 1)) by (apply pow_R1_Rle; lra).
  rewrite <- !pow_inv. split.
  - eapply Rle_trans; [apply I|]. rewrite EQ.
    replace (gam k * (2 ^ (d + 1) * M * (/ L) ^ (d + 1))) with (2 ^ (d + 1) * (gam k * M) * (/ L) ^ (d + 1)) by ring.
    apply Rmult_le_compat_r; [left; apply ILd|]. apply Rmult_le_compat_r; [exact GM|lra].
  - rewrite EQ, Rabs_pos_eq by (left; apply ILd). rewrite Nat.add_1_r. cbn [pow].
    apply Rle_trans with (1 * (L * / L) * (/ L) ^ d); [rewrite Rinv_r by lra; lra|].
    replace (2 * 2 ^ d * M * (/ L * (/ L) ^ d)) with (2 * 2 ^ d * (M * / L) * (/ L) ^ d) by ring.
    apply Rmult_le_compat_r; [left; apply ILd|]. rewrite Nat.add_1_r in P2. cbn [pow] in P2.
    apply Rmult_le_compat; [lra|apply Rmult_le_pos; lra|exact P2|]. apply Rmult_le_compat_r; lra.
Qed.
End leaves.
