From Coq Require Import Lra Nsatz.
From Verif Require Import Base SpecTensor ModelTrans ModelDecomp SpecTrans SpecDecomp ProofTrans ProofRigid ProofQuat ProofEuler.
Open Scope R_scope.
Notation length := List.length.

(** ** orthonormal triples *)
Definition ortho3 (e0 e1 e2 : vec) : Prop :=
  dot3 e0 e0 = 1 /\ dot3 e1 e1 = 1 /\ dot3 e2 e2 = 1 /\ dot3 e0 e1 = 0 /\ dot3 e0 e2 = 0 /\ dot3 e1 e2 = 0.
Definition triple (a b c : vec) : R := dot3 a (cross b c).
Lemma dot3_zero v : dot3 v v = 0 -> v 0%nat = 0 /\ v 1%nat = 0 /\ v 2%nat = 0.
Proof.
  unfold dot3. intros H. pose proof (Rle_0_sqr (v 0%nat)). pose proof (Rle_0_sqr (v 1%nat)). pose proof (Rle_0_sqr (v 2%nat)). unfold Rsqr in *.
  repeat split; apply Rsqr_0_uniq; unfold Rsqr; lra.
Qed.
Lemma normalise v : dot3 v v <> 0 -> 0 < norm3 v /\ dot3 (over v (norm3 v)) (over v (norm3 v)) = 1 /\
  (forall k, v k = norm3 v * over v (norm3 v) k).
Proof.
  intros H. pose proof (dot3_nonneg v). assert (P : 0 < dot3 v v) by lra. pose proof (sqrt_lt_R0 _ P) as S.
  unfold norm3. split; [exact S|]. split.
  - unfold over. replace (dot3 _ _) with (dot3 v v / (sqrt (dot3 v v) * sqrt (dot3 v v))) by (unfold dot3 at 1 4; field; lra).
    rewrite sqrt_sqrt by lra. field. lra.
  - intros k. unfold over. field. lra.
Qed.
Lemma triple_zero a b c : triple a b c <> 0 -> dot3 a a <> 0 /\ dot3 b b <> 0 /\ dot3 c c <> 0.
Proof.
  intros H. repeat split; intros E; apply dot3_zero in E; destruct E as (E0 & E1 & E2); apply H; unfold triple, dot3, cross, vec3; cbn; rewrite E0, E1, E2; ring.
Qed.
Lemma dot3_less e v w t : dot3 e (less v w t) = dot3 e v - t * dot3 e w.
Proof. unfold dot3, less. ring. Qed.
Lemma gram_schmidt a b c : triple a b c <> 0 ->
  let s0 := norm3 a in let e0 := over a s0 in let z0 := dot3 e0 b in
  let b' := less b e0 z0 in let s1 := norm3 b' in let e1 := over b' s1 in
  let z1 := dot3 e0 c in let c' := less c e0 z1 in let z2 := dot3 e1 c' in
  let c'' := less c' e1 z2 in let s2 := norm3 c'' in let e2 := over c'' s2 in
  0 < s0 /\ 0 < s1 /\ 0 < s2 /\ ortho3 e0 e1 e2 /\
  (forall k, a k = s0 * e0 k) /\ (forall k, b k = s1 * e1 k + z0 * e0 k) /\
  (forall k, c k = s2 * e2 k + z1 * e0 k + z2 * e1 k).
Proof.
  intros D s0 e0 z0 b' s1 e1 z1 c' z2 c'' s2 e2.
  destruct (triple_zero a b c D) as (Na & _ & _).
  destruct (normalise a Na) as (S0 & U0 & A). fold s0 in S0, U0, A. fold e0 in U0, A.
  assert (B0 : forall k, b k = b' k + z0 * e0 k) by (intros k; unfold b', less; ring).
  assert (O1 : dot3 e0 b' = 0).
  { unfold b'. rewrite dot3_less, U0. fold z0. ring. }
  assert (D1 : triple a b c = s0 * triple e0 b' c).
  { unfold triple, dot3, cross, vec3. cbn. rewrite !A, !B0. ring. }
  destruct (triple_zero e0 b' c) as (_ & Nb & _); [intros E; apply D; rewrite D1, E; ring|].
  destruct (normalise b' Nb) as (S1 & U1 & B1). fold s1 in S1, U1, B1. fold e1 in U1, B1.
  assert (O2 : dot3 e0 e1 = 0).
  { assert (E : dot3 e0 b' = s1 * dot3 e0 e1) by (unfold dot3; rewrite !B1; ring). rewrite E in O1.
    apply Rmult_integral in O1. destruct O1; lra. }
  assert (C0 : forall k, c k = c'' k + z1 * e0 k + z2 * e1 k) by (intros k; unfold c'', c', less; ring).
  assert (O3 : dot3 e0 c'' = 0).
  { unfold c'', c'. rewrite !dot3_less, U0, O2. fold z1. ring. }
  assert (O4 : dot3 e1 c'' = 0).
  { unfold c''. rewrite dot3_less, U1. fold z2. ring. }
  assert (D2 : triple a b c = s0 * s1 * triple e0 e1 c'').
  { rewrite D1. unfold triple, dot3, cross, vec3. cbn. rewrite !C0, !B1. ring. }
  destruct (triple_zero e0 e1 c'') as (_ & _ & Nc); [intros E; apply D; rewrite D2, E; ring|].
  destruct (normalise c'' Nc) as (S2 & U2 & C1). fold s2 in S2, U2, C1. fold e2 in U2, C1.
  assert (X : forall e, dot3 e c'' = 0 -> dot3 e e2 = 0).
  { intros e He. assert (E : dot3 e c'' = s2 * dot3 e e2) by (unfold dot3; rewrite !C1; ring). rewrite E in He.
    apply Rmult_integral in He. destruct He; lra. }
  repeat split; auto.
  - intros k. rewrite B0, B1. reflexivity.
  - intros k. rewrite C0, C1. reflexivity.
Qed.

(** ** Euler angles of a rotation *)
Definition sxyz : code := code_of (Conv false AX AY AZ).
Lemma ortho_triple e0 e1 e2 : ortho3 e0 e1 e2 -> triple e0 e1 e2 = 1 \/ triple e0 e1 e2 = -1.
Proof.
  intros (A & B & C & D & E & F). assert (H : triple e0 e1 e2 * triple e0 e1 e2 = 1).
  { unfold triple, dot3, cross, vec3 in *. cbn in *. revert A B C D E F.
    generalize (e0 0%nat) (e0 1%nat) (e0 2%nat) (e1 0%nat) (e1 1%nat) (e1 2%nat) (e2 0%nat) (e2 1%nat) (e2 2%nat).
    intros. nsatz. }
  assert (H2 : (triple e0 e1 e2 - 1) * (triple e0 e1 e2 + 1) = 0) by lra.
  apply Rmult_integral in H2. destruct H2; [left|right]; lra.
Qed.
Definition columns (e0 e1 e2 : vec) : mat4 := set33 identity4 (fun i j => match j with 0%nat => e0 i | 1%nat => e1 i | _ => e2 i end).
Lemma columns_rotation e0 e1 e2 : ortho3 e0 e1 e2 -> triple e0 e1 e2 = 1 -> proper_rotation (columns e0 e1 e2).
Proof.
  intros (A & B & C & D & E & F) T. split; [|split].
  - split; [split|]; [intros [|[|[|k]]] Hk; try lia; reflexivity|reflexivity|intros [|[|[|k]]] Hk; try lia; reflexivity].
  - unfold triple, dot3, cross, vec3 in *. cbn in *.
    assert (R : forall a b, (a < 3)%nat -> (b < 3)%nat -> e0 a * e0 b + e1 a * e1 b + e2 a * e2 b = delta3 a b).
    { intros a b Ha Hb. revert A B C D E F T.
      destruct a as [|[|[|a]]], b as [|[|[|b]]]; try lia; unfold delta3; cbn;
      generalize (e0 0%nat) (e0 1%nat) (e0 2%nat) (e1 0%nat) (e1 1%nat) (e1 2%nat) (e2 0%nat) (e2 1%nat) (e2 2%nat);
      intros; nsatz. }
    intros a b Ha Hb. split.
    + unfold mmul, transpose, columns, set33. destruct a as [|[|[|a]]], b as [|[|[|b]]]; try lia; unfold delta3; cbn; lra.
    + rewrite <- (R a b Ha Hb). unfold mmul, transpose, columns, set33.
      destruct (Nat.ltb_spec a 3); [|lia]. destruct (Nat.ltb_spec b 3); [|lia]. cbn. ring.
  - unfold triple, dot3, cross, vec3, det3, columns, set33 in *. cbn in *. lra.
Qed.
Lemma euler_of_rotation q : proper_rotation q ->
  Rabs (- q 2%nat 0%nat) <= 1 /\
  let a1 := asin (- q 2%nat 0%nat) in
  forall a0 a2, (if Req_EM_T (cos a1) 0 then (atan2 (- q 1%nat 2%nat) (q 1%nat 1%nat), 0)
     else (atan2 (q 2%nat 1%nat) (q 2%nat 2%nat), atan2 (q 1%nat 0%nat) (q 0%nat 0%nat))) = (a0, a2) ->
  same4 (euler_coded a0 a1 a2 sxyz) q.
Proof.
  intros Pr. pose proof Pr as ((Aff & Lin) & _ & _).
  destruct (rotation_eqs q Pr) as (a & b & c & d & e & f & g & h & i & (E1 & E2 & E3) & (E4 & E5 & E6) & (E7 & E8 & E9) &
    (R1 & R2 & R3) & (K1 & K2 & K3) & (X1 & X2 & X3) & (X4 & X5 & X6) & (X7 & X8 & X9) & (Y1 & Y2 & Y3) & (Z1 & Z2 & Z3)).
  assert (Hg : -1 <= - q 2%nat 0%nat <= 1) by (rewrite E7; split; nra).
  split; [apply Rabs_le; exact Hg|]. intros a1 a0 a2 HA.
  assert (Sj : sin a1 = - g) by (unfold a1; rewrite sin_asin by exact Hg; rewrite E7; reflexivity).
  assert (Cj : cos a1 = sqrt (1 - g * g)).
  { unfold a1. rewrite cos_asin by exact Hg. f_equal. unfold Rsqr. rewrite E7. ring. }
  assert (Cj2 : cos a1 * cos a1 = 1 - g * g) by (rewrite Cj; apply sqrt_sqrt; nra).
  assert (Cj0 : 0 <= cos a1) by (rewrite Cj; apply sqrt_pos).
  intros x y Hx Hy.
  enough (G : forall si ci sk ck, sin a0 = si -> cos a0 = ci -> sin a2 = sk -> cos a2 = ck ->
    cos a1 * ck = a /\ (- g) * (si * ck) - ci * sk = b /\ (- g) * (ci * ck) + si * sk = c /\
    cos a1 * sk = d /\ (- g) * (si * sk) + ci * ck = e /\ (- g) * (ci * sk) - si * ck = f /\
    cos a1 * si = h /\ cos a1 * ci = i).
  { destruct (G _ _ _ _ eq_refl eq_refl eq_refl eq_refl) as (G1 & G2 & G3 & G4 & G5 & G6 & G7 & G8).
    destruct Aff as [A0 A1].
    destruct x as [|[|[|[|x]]]], y as [|[|[|[|y]]]]; try lia;
      cbv [euler_coded sxyz code_of]; cbn -[sin cos]; rewrite ?Sj;
      rewrite ?E1, ?E2, ?E3, ?E4, ?E5, ?E6, ?E7, ?E8, ?E9, ?A1, ?(A0 0%nat ltac:(lia)), ?(A0 1%nat ltac:(lia)), ?(A0 2%nat ltac:(lia)),
        ?(Lin 0%nat ltac:(lia)), ?(Lin 1%nat ltac:(lia)), ?(Lin 2%nat ltac:(lia)); try assumption; try reflexivity; ring. }
  intros si ci sk ck <- <- <- <-.
  rewrite E1, E4, E5, E6, E8, E9 in HA. clear E1 E2 E3 E4 E5 E6 E7 E8 E9.
  destruct (Req_EM_T (cos a1) 0) as [Z|N].
  - injection HA as <- <-. rewrite sin_0, cos_0, Z.
    assert (G2 : g * g = 1) by (rewrite Z in Cj2; lra).
    assert (Ha : a = 0) by nra. assert (Hd : d = 0) by nra. assert (Hh : h = 0) by nra. assert (Hi : i = 0) by nra.
    subst a d h i.
    assert (N : e * e + (- f) * (- f) = 1) by lra.
    destruct (atan2_spec (- f) e) as [Hc Hs]; [lra|]. rewrite Hc, Hs, N, sqrt_1.
    repeat split; try lra; nra.
  - injection HA as <- <-.
    assert (P : 0 < cos a1) by lra. assert (P2 : 0 < 1 - g * g) by (rewrite <- Cj2; apply Rmult_lt_0_compat; exact P).
    destruct (atan2_spec h i) as [Hc Hs]; [lra|]. rewrite Hc, Hs.
    destruct (atan2_spec d a) as [Hc2 Hs2]; [lra|]. rewrite Hc2, Hs2.
    replace (i * i + h * h) with (1 - g * g) by lra. replace (a * a + d * d) with (1 - g * g) by lra.
    rewrite <- Cj. clear Hc Hs Hc2 Hs2 Hg Sj. set (k := cos a1) in *. clearbody k. clear Cj.
    assert (V : forall u v, u * (k * k) = v -> v / (k * k) = u) by (intros u v <-; field; lra).
    repeat split.
    + field. lra.
    + transitivity ((- g * h * a - i * d) / (k * k)); [field; lra|]. apply V. rewrite Cj2. clear - X2 X6. nsatz.
    + transitivity ((- g * i * a + h * d) / (k * k)); [field; lra|]. apply V. rewrite Cj2. clear - X3 X5. nsatz.
    + field. lra.
    + transitivity ((- g * h * d + i * a) / (k * k)); [field; lra|]. apply V. rewrite Cj2. clear - X5 X3. nsatz.
    + transitivity ((- g * i * d - h * a) / (k * k)); [field; lra|]. apply V. rewrite Cj2. clear - X6 X2. nsatz.
    + field. lra.
    + field. lra.
Qed.
