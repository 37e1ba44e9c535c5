(** Proof of C164: the rounding errors of point pixels. *)
From Flocq Require Import Core.
From Verif Require Import Base ModelExpr ModelField ModelFloat ModelFloatExpr ModelFloatField SpecFloat ProofFloat ProofFloat2 ProofFloat3.
Open Scope R_scope.

Lemma near_pow k a x n : near k a x -> near (n * k) (a ^ n) (x ^ n).
Proof.
  intros H; induction n as [|n IH]; [apply near_refl|]. cbn [pow Nat.mul]. apply near_mul; assumption.
Qed.
Lemma near_sqrt k a x : 0 <= x -> near (k + k) a x -> near k (sqrt a) (sqrt x).
Proof.
  intros Hx [t [-> [L U]]]. pose proof (wp_ge k) as W. rewrite pow_add, Rinv_mult in L. rewrite pow_add in U.
  assert (W' : 0 < / w ^ k) by (apply Rinv_0_lt_compat; lra).
  assert (T : 0 <= t) by (pose proof (Rmult_lt_0_compat _ _ W' W'); lra).
  exists (sqrt t). split; [apply sqrt_mult; assumption|]. split.
  - rewrite <- (sqrt_square (/ w ^ k)) by lra. apply sqrt_le_1_alt, L.
  - rewrite <- (sqrt_square (w ^ k)) by lra. apply sqrt_le_1_alt, U.
Qed.
Lemma near_add k a b x y : 0 <= x -> 0 <= y -> near k a x -> near k b y -> near k (a + b) (x + y).
Proof.
  intros Hx Hy [t [-> [L U]]] [s [-> [L' U']]].
  destruct (Req_dec (x + y) 0) as [E|E].
  - assert (x = 0) by lra. assert (y = 0) by lra. subst. exists 1. pose proof (wp_ge k). split; [ring|].
    split; [|lra]. rewrite <- Rinv_1. apply Rinv_le_contravar; lra.
  - exists ((x * t + y * s) / (x + y)). split; [field; exact E|].
    assert (P : 0 < / (x + y)) by (apply Rinv_0_lt_compat; lra).
    split.
    + apply Rmult_le_reg_r with (x + y); [lra|]. unfold Rdiv. rewrite Rmult_assoc, Rinv_l by exact E. nra.
    + apply Rmult_le_reg_r with (x + y); [lra|]. unfold Rdiv. rewrite Rmult_assoc, Rinv_l by exact E. nra.
Qed.
Lemma near_Rabs k a x : near k a x -> near k (Rabs a) (Rabs x).
Proof.
  intros [t [-> [L U]]]. exists t. split; [|auto]. pose proof (wp_ge k).
  assert (0 < / w ^ k) by (apply Rinv_0_lt_compat; lra). rewrite Rabs_mult, (Rabs_pos_eq t) by lra. reflexivity.
Qed.

(** ** Terms that are computed with a small relative error *)
Fixpoint pos (e : fx) : bool :=
  match e with
  | Pow _ n => Nat.even n
  | Add a b => pos a && pos b
  | _ => false
  end.
Fixpoint cls (e : fx) : option nat :=
  match e with
  | Volt | Num _ | Lit _ => Some 0%nat
  | Pi => Some 1%nat
  | Add (Num _) (Num _) | Sub (Num _) (Num _) | Add (Num _) (Mul (Lit Z0) (Num _)) => Some 1%nat
  | Add a b =>
      if pos a && pos b then
        match cls a, cls b with Some j, Some k => Some (S (Nat.max j k)) | _, _ => None end
      else None
  | Sub _ _ => None
  | Mul a b | Div a b =>
      match cls a, cls b with Some j, Some k => Some (S (j + k)) | _, _ => None end
  | Neg a | Abs a => cls a
  | Pow a n => match cls a with Some k => Some (n * k + 2)%nat | None => None end
  | Sqrt a => if pos a then match cls a with Some k => Some (S (Nat.div2 (S k))) | None => None end else None
  | Atan2 _ _ => None
  end.
(** ** Terms that are computed with a small error compared to their size *)
Fixpoint err (e : fx) : option nat :=
  match cls e with
  | Some k => Some k
  | None =>
      match e with
      | Add a b | Sub a b =>
          match err a, err b with Some j, Some k => Some (S (Nat.max j k)) | _, _ => None end
      | Mul a b => match err a, err b with Some j, Some k => Some (S (j + k)) | _, _ => None end
      | Neg a => err a
      | _ => None
      end
  end.
Fixpoint mag (v : R) (e : fx) : R :=
  match cls e with
  | Some k => Rabs (feval exact v e)
  | None =>
      match e with
      | Add a b | Sub a b => mag v a + mag v b
      | Mul a b => mag v a * mag v b
      | Neg a => mag v a
      | _ => 0
      end
  end.

Lemma pos_exact v e : pos e = true -> 0 <= feval exact v e.
Proof.
  induction e; cbn [pos]; intros H; try discriminate; cbn [feval exact rnd lpow].
  - apply andb_prop in H as [H1 H2]. pose proof (IHe1 H1). pose proof (IHe2 H2). cbn [exact] in *. lra.
  - apply Nat.even_spec in H as [m ->]. rewrite pow_mult. apply pow_le, pow2_ge_0.
Qed.

Section arith.
Variable A : arith.
Hypothesis Hr : forall x, near 1 (rnd A x) x.
Hypothesis Hp : forall x n, near 2 (lpow A x n) (x ^ n).
Hypothesis Hpi : near 1 (lpi A) PI.

Lemma rnd_near k x y : near k x y -> near (S k) (rnd A x) y.
Proof. intros H. apply (near_trans 1 k _ x); [apply Hr|exact H]. Qed.

Lemma cls_near v e : forall k, cls e = Some k -> near k (feval A v e) (feval exact v e).
Proof.
  induction e; intros k H.
  - injection H as <-. apply near_refl.
  - injection H as <-. apply near_refl.
  - injection H as <-. apply near_refl.
  - injection H as <-. exact Hpi.
  - assert (G : (pos e1 && pos e2 = true /\ match cls e1, cls e2 with Some j, Some k' => Some (S (Nat.max j k')) | _, _ => None end = Some k)
              \/ (exists a b, e1 = Num a /\ e2 = Num b /\ k = 1%nat)
              \/ (exists a b, e1 = Num a /\ e2 = Mul (Lit 0) (Num b) /\ k = 1%nat)).
    { cbn [cls] in H. destruct e1; try (left; destruct (_ && _); [auto|discriminate]).
      destruct e2; try (left; destruct (_ && _); [auto|discriminate]).
      - right; left. injection H as <-. eauto.
      - destruct e2_1; try (left; destruct (_ && _); [auto|discriminate]).
        destruct z; try (left; destruct (_ && _); [auto|discriminate]).
        destruct e2_2; try (left; destruct (_ && _); [auto|discriminate]).
        right; right. injection H as <-. eauto. }
    cbn [feval]. destruct G as [[G1 G2]|[(a & b & -> & -> & ->)|(a & b & -> & -> & ->)]].
    + apply andb_prop in G1 as [P1 P2].
      destruct (cls e1) as [k1|]; [|discriminate]. destruct (cls e2) as [k2|]; [|discriminate]. injection G2 as <-.
      apply rnd_near. apply near_add; try (apply pos_exact; assumption).
      * apply (near_weak k1); [lia|]. apply IHe1; reflexivity.
      * apply (near_weak k2); [lia|]. apply IHe2; reflexivity.
    + apply Hr.
    + cbn [feval exact rnd]. rewrite Rmult_0_l.
      destruct (Hr 0) as [t [E _]]. rewrite Rmult_0_l in E. rewrite E. apply Hr.
  - cbn [cls] in H. destruct e1; try discriminate. destruct e2; try discriminate. injection H as <-. apply Hr.
  - cbn [cls] in H. destruct (cls e1) as [k1|]; [|discriminate]. destruct (cls e2) as [k2|]; [|discriminate]. injection H as <-.
    cbn [feval exact rnd]. apply rnd_near, near_mul; [apply IHe1|apply IHe2]; reflexivity.
  - cbn [cls] in H. destruct (cls e1) as [k1|]; [|discriminate]. destruct (cls e2) as [k2|]; [|discriminate]. injection H as <-.
    cbn [feval exact rnd]. apply rnd_near, near_div; [apply IHe1|apply IHe2]; reflexivity.
  - cbn [cls] in H. cbn [feval]. apply near_opp, IHe, H.
  - cbn [cls] in H. destruct (cls e) as [k1|]; [|discriminate]. injection H as <-. cbn [feval exact lpow].
    rewrite Nat.add_comm. apply (near_trans 2 _ _ (feval A v e ^ n)); [apply Hp|]. apply near_pow, IHe; reflexivity.
  - cbn [cls] in H. destruct (pos e) eqn:P; [|discriminate]. destruct (cls e) as [k1|]; [|discriminate]. injection H as <-.
    cbn [feval exact rnd]. apply rnd_near, near_sqrt; [apply pos_exact, P|].
    apply (near_weak k1); [|apply IHe; reflexivity].
    change (k1 <= Nat.div2 (S k1) + Nat.div2 (S k1))%nat.
    pose proof (Nat.div2_odd (S k1)) as D. destruct (Nat.odd (S k1)); cbn [Nat.b2n] in D; lia.
  - cbn [cls] in H. cbn [feval]. apply near_Rabs, IHe, H.
  - discriminate.
Qed.

Definition bounded (k : nat) (f e m : R) : Prop := Rabs (f - e) <= gam k * m /\ Rabs e <= m.
Lemma bounded_rnd k f e m : bounded k f e m -> bounded (S k) (rnd A f) e m.
Proof.
  intros [H1 H2]. split; [|exact H2]. destruct (Hr f) as [t [-> [L U]]].
  assert (Ht : Rabs (t - 1) <= u64).
  { pose proof (near_abs 1 (1 * t) 1) as Q. rewrite Rmult_1_l, Rabs_R1, Rmult_1_r in Q.
    replace (gam 1) with u64 in Q by (unfold gam; cbn; ring). apply Q. exists t; split; [ring|auto]. }
  assert (Htt : Rabs t <= w).
  { pose proof u_pos. unfold w. apply Rabs_le_inv in Ht. apply Rabs_le. split; lra. }
  replace (f * t - e) with (t * (f - e) + (t - 1) * e) by ring.
  eapply Rle_trans; [apply Rabs_triang|]. rewrite !Rabs_mult, <- gam_S, Rmult_plus_distr_r.
  apply Rplus_le_compat; [rewrite Rmult_assoc|]; apply Rmult_le_compat; auto using Rabs_pos.
Qed.
Lemma bounded_weak j k f e m : (j <= k)%nat -> bounded j f e m -> bounded k f e m.
Proof.
  intros H [H1 H2]. split; [|exact H2]. eapply Rle_trans; [exact H1|].
  apply Rmult_le_compat_r; [pose proof (Rabs_pos e); lra|]. apply gam_mono, H.
Qed.
Lemma bounded_add k f e m f' e' m' : bounded k f e m -> bounded k f' e' m' -> bounded k (f + f') (e + e') (m + m').
Proof.
  intros [H1 H2] [H3 H4]. split.
  - replace (f + f' - (e + e')) with ((f - e) + (f' - e')) by ring.
    eapply Rle_trans; [apply Rabs_triang|]. lra.
  - eapply Rle_trans; [apply Rabs_triang|]. lra.
Qed.
Lemma bounded_opp k f e m : bounded k f e m -> bounded k (- f) (- e) m.
Proof.
  intros [H1 H2]. split; [|rewrite Rabs_Ropp; exact H2].
  replace (- f - - e) with (- (f - e)) by ring. rewrite Rabs_Ropp. exact H1.
Qed.
Lemma bounded_mul j k f e m f' e' m' : bounded j f e m -> bounded k f' e' m' -> bounded (j + k) (f * f') (e * e') (m * m').
Proof.
  intros [H1 H2] [H3 H4]. split.
  - replace (f * f' - e * e') with (f * (f' - e') + e' * (f - e)) by ring.
    eapply Rle_trans; [apply Rabs_triang|]. rewrite !Rabs_mult.
    assert (F : Rabs f <= w ^ j * m).
    { replace f with ((f - e) + e) by ring. eapply Rle_trans; [apply Rabs_triang|].
      unfold gam in H1; fold w in H1. lra. }
    assert (E : gam (j + k) * (m * m') = w ^ j * m * (gam k * m') + m' * (gam j * m)).
    { unfold gam; fold w. rewrite pow_add. ring. }
    rewrite E. apply Rplus_le_compat; apply Rmult_le_compat; auto using Rabs_pos.
  - rewrite Rabs_mult. apply Rmult_le_compat; auto using Rabs_pos.
Qed.
Lemma err_bounded v e : forall k, err e = Some k -> bounded k (feval A v e) (feval exact v e) (mag v e).
Proof.
  induction e; intros k H.
  all: try (injection H as <-; split; [apply near_abs, cls_near; reflexivity|apply Rle_refl]).
  all: cbn [err mag] in *.
  all: match type of H with context [match ?c with Some _ => _ | None => _ end] =>
         destruct c as [k0|] eqn:C;
         [injection H as <-; split; [apply near_abs, cls_near, C|apply Rle_refl]|] end.
  all: try discriminate.
  - destruct (err e1) as [k1|]; [|discriminate]. destruct (err e2) as [k2|]; [|discriminate]. injection H as <-.
    cbn [feval exact rnd]. apply bounded_rnd, bounded_add.
    + apply (bounded_weak k1); [lia|]. apply IHe1; reflexivity.
    + apply (bounded_weak k2); [lia|]. apply IHe2; reflexivity.
  - destruct (err e1) as [k1|]; [|discriminate]. destruct (err e2) as [k2|]; [|discriminate]. injection H as <-.
    cbn [feval exact rnd]. apply bounded_rnd. unfold Rminus. apply bounded_add.
    + apply (bounded_weak k1); [lia|]. apply IHe1; reflexivity.
    + apply bounded_opp, (bounded_weak k2); [lia|]. apply IHe2; reflexivity.
  - destruct (err e1) as [k1|]; [|discriminate]. destruct (err e2) as [k2|]; [|discriminate]. injection H as <-.
    cbn [feval exact rnd]. apply bounded_rnd, bounded_mul; [apply IHe1|apply IHe2]; reflexivity.
  - cbn [feval]. apply bounded_opp, IHe, H.
Qed.
End arith.

(** ** The size of a polynomial in [x], [y], [z], [r] *)
Fixpoint bd (e : fx) : option (Z * nat) :=
  match e with
  | Lit z => Some (Z.abs z, 0%nat)
  | Sub (Num _) (Num _) | Add (Num _) (Mul (Lit Z0) (Num _)) | Sqrt _ => Some (1%Z, 1%nat)
  | Add a b | Sub a b =>
      match bd a, bd b with
      | Some (c, m), Some (c', n) => if (m =? n)%nat then Some ((c + c')%Z, m) else None
      | _, _ => None
      end
  | Mul a b => match bd a, bd b with Some (c, m), Some (c', n) => Some ((c * c')%Z, (m + n)%nat) | _, _ => None end
  | Pow a n => match bd a with Some (c, m) => Some ((c ^ Z.of_nat n)%Z, (m * n)%nat) | None => None end
  | Neg a => bd a
  | _ => None
  end.
Fixpoint leaves (v rho : R) (e : fx) : Prop :=
  match e with
  | Sub (Num _) (Num _) | Add (Num _) (Mul (Lit Z0) (Num _)) | Sqrt _ => Rabs (feval exact v e) <= rho
  | Add a b | Sub a b | Mul a b => leaves v rho a /\ leaves v rho b
  | Pow a _ | Neg a => leaves v rho a
  | _ => True
  end.
Definition size_ok (rho : R) (cm : Z * nat) (x : R) : Prop := x <= IZR (fst cm) * rho ^ snd cm.

Lemma size_add rho c c' m x y : size_ok rho (c, m) x -> size_ok rho (c', m) y -> size_ok rho ((c + c')%Z, m) (x + y).
Proof. unfold size_ok; cbn. rewrite plus_IZR. lra. Qed.
Lemma size_mul rho c c' m n x y : 0 <= x -> 0 <= y -> size_ok rho (c, m) x -> size_ok rho (c', n) y ->
  size_ok rho ((c * c')%Z, (m + n)%nat) (x * y).
Proof.
  unfold size_ok; cbn. intros Hx Hy H1 H2. rewrite mult_IZR, pow_add.
  replace (IZR c * IZR c' * (rho ^ m * rho ^ n)) with ((IZR c * rho ^ m) * (IZR c' * rho ^ n)) by ring.
  apply Rmult_le_compat; assumption.
Qed.
Lemma size_pow rho c m n x : 0 <= x -> size_ok rho (c, m) x -> size_ok rho ((c ^ Z.of_nat n)%Z, (m * n)%nat) (x ^ n).
Proof.
  unfold size_ok; cbn. intros Hx H. rewrite <- pow_IZR, pow_mult, <- Rpow_mult_distr. apply pow_incr. split; assumption.
Qed.

(** the three kinds of sums *)
Lemma bd_add_cases a b cm v rho : bd (Add a b) = Some cm -> leaves v rho (Add a b) ->
  (cm = (1%Z, 1%nat) /\ Rabs (feval exact v (Add a b)) <= rho /\ (exists q h, a = Num q /\ b = Mul (Lit 0) (Num h))) \/
  (exists c c' m, bd a = Some (c, m) /\ bd b = Some (c', m) /\ cm = ((c + c')%Z, m) /\ leaves v rho a /\ leaves v rho b).
Proof.
  intros H HL.
  assert (D : (exists q h, a = Num q /\ b = Mul (Lit 0) (Num h)) \/
    (match bd a, bd b with Some (c, m), Some (c', n) => if (m =? n)%nat then Some ((c + c')%Z, m) else None | _, _ => None end = Some cm
     /\ (leaves v rho a /\ leaves v rho b))).
  { destruct a; try (right; split; [exact H|exact HL]).
    destruct b; try (right; split; [exact H|exact HL]).
    destruct b1; try (right; split; [exact H|exact HL]).
    destruct z; try (right; split; [exact H|exact HL]).
    destruct b2; try (right; split; [exact H|exact HL]). left; eauto. }
  destruct D as [(q & h & -> & ->)|[D [L1 L2]]].
  - left. injection H as <-. split; [reflexivity|]. split; [exact HL|eauto].
  - right. destruct (bd a) as [[c m]|]; [|discriminate]. destruct (bd b) as [[c' n]|]; [|discriminate].
    destruct (m =? n)%nat eqn:E; [|discriminate]. apply Nat.eqb_eq in E. subst n. injection D as <-.
    exists c, c', m. auto.
Qed.
Lemma bd_sub_cases a b cm v rho : bd (Sub a b) = Some cm -> leaves v rho (Sub a b) ->
  (cm = (1%Z, 1%nat) /\ Rabs (feval exact v (Sub a b)) <= rho /\ (exists q h, a = Num q /\ b = Num h)) \/
  (exists c c' m, bd a = Some (c, m) /\ bd b = Some (c', m) /\ cm = ((c + c')%Z, m) /\ leaves v rho a /\ leaves v rho b).
Proof.
  intros H HL.
  assert (D : (exists q h, a = Num q /\ b = Num h) \/
    (match bd a, bd b with Some (c, m), Some (c', n) => if (m =? n)%nat then Some ((c + c')%Z, m) else None | _, _ => None end = Some cm
     /\ (leaves v rho a /\ leaves v rho b))).
  { destruct a; try (right; split; [exact H|exact HL]).
    destruct b; try (right; split; [exact H|exact HL]). left; eauto. }
  destruct D as [(q & h & -> & ->)|[D [L1 L2]]].
  - left. injection H as <-. split; [reflexivity|]. split; [exact HL|eauto].
  - right. destruct (bd a) as [[c m]|]; [|discriminate]. destruct (bd b) as [[c' n]|]; [|discriminate].
    destruct (m =? n)%nat eqn:E; [|discriminate]. apply Nat.eqb_eq in E. subst n. injection D as <-.
    exists c, c', m. auto.
Qed.
Lemma size_leaf rho x : x <= rho -> size_ok rho (1%Z, 1%nat) x.
Proof. unfold size_ok; cbn. lra. Qed.
Lemma bd_exact v rho e : forall cm, bd e = Some cm -> leaves v rho e -> size_ok rho cm (Rabs (feval exact v e)).
Proof.
  induction e; intros cm H HL; try discriminate.
  - injection H as <-. unfold size_ok; cbn. rewrite Rmult_1_r, <- abs_IZR. apply Rle_refl.
  - destruct (bd_add_cases e1 e2 cm v rho H HL) as [[-> [B _]]|(c & c' & m & B1 & B2 & -> & L1 & L2)].
    + apply size_leaf, B.
    + unfold size_ok. eapply Rle_trans; [cbn [feval exact rnd]; apply Rabs_triang|].
      apply (size_add rho c c' m); [apply IHe1|apply IHe2]; assumption.
  - destruct (bd_sub_cases e1 e2 cm v rho H HL) as [[-> [B _]]|(c & c' & m & B1 & B2 & -> & L1 & L2)].
    + apply size_leaf, B.
    + unfold size_ok. eapply Rle_trans; [cbn [feval exact rnd]; unfold Rminus; apply Rabs_triang|]. rewrite Rabs_Ropp.
      apply (size_add rho c c' m); [apply IHe1|apply IHe2]; assumption.
  - cbn [bd] in H. destruct HL as [L1 L2]. destruct (bd e1) as [[c m]|]; [|discriminate]. destruct (bd e2) as [[c' n]|]; [|discriminate].
    injection H as <-. cbn [feval exact rnd]. rewrite Rabs_mult.
    apply size_mul; auto using Rabs_pos.
  - cbn [bd] in H. cbn [feval]. rewrite Rabs_Ropp. apply IHe; assumption.
  - cbn [bd] in H. destruct (bd e) as [[c m]|]; [|discriminate]. injection H as <-. cbn [feval exact lpow].
    rewrite <- RPow_abs. apply size_pow; auto using Rabs_pos.
  - cbn [bd] in H. injection H as <-. apply size_leaf, HL.
Qed.
Lemma mag_pos v e : 0 <= mag v e.
Proof.
  induction e; cbn [mag]; match goal with |- context [match ?c with Some _ => _ | None => _ end] => destruct c end;
    auto using Rabs_pos; try lra. apply Rmult_le_pos; assumption.
Qed.
Lemma bd_mag v rho e : forall cm, bd e = Some cm -> leaves v rho e -> size_ok rho cm (mag v e).
Proof.
  induction e; intros cm H HL; cbn [mag];
    match goal with |- context [match ?c with Some _ => _ | None => _ end] => destruct c eqn:C end;
    try (apply bd_exact; assumption); try discriminate.
  - destruct (bd_add_cases e1 e2 cm v rho H HL) as [[-> [B (q & h & -> & ->)]]|(c & c' & m & B1 & B2 & -> & L1 & L2)].
    + discriminate.
    + apply (size_add rho c c' m); [apply IHe1|apply IHe2]; assumption.
  - destruct (bd_sub_cases e1 e2 cm v rho H HL) as [[-> [B (q & h & -> & ->)]]|(c & c' & m & B1 & B2 & -> & L1 & L2)].
    + discriminate.
    + apply (size_add rho c c' m); [apply IHe1|apply IHe2]; assumption.
  - cbn [bd] in H. destruct HL as [L1 L2]. destruct (bd e1) as [[c m]|]; [|discriminate]. destruct (bd e2) as [[c' n]|]; [|discriminate].
    injection H as <-. apply size_mul; auto using mag_pos.
  - cbn [bd] in H. apply IHe; assumption.
  - eapply Rle_trans; [|apply (bd_exact v rho _ cm H HL)]. apply Rabs_pos.
  - eapply Rle_trans; [|apply (bd_exact v rho _ cm H HL)]. apply Rabs_pos.
Qed.

(** ** The terms of a point pixel *)
Definition nfx (d : nat) (r a : fx) : fx :=
  match d with
  | 0%nat => a / (2 * Pi * r ^ 3)
  | 1%nat => a / (2 * Pi * r ^ 5)
  | 2%nat => a / (2 * Pi / 3 * r ^ 7)
  | 3%nat => a / (2 * Pi / 3 * r ^ 9)
  | 4%nat => a / (2 * Pi / 15 * r ^ 11)
  | _ => a / (2 * Pi / 45 * r ^ 13)
  end%fx.
Definition left_of (e : fx) : fx := match e with Mul p _ => p | _ => e end.
Definition polys (d : nat) (x y z r a : fx) : list fx := map left_of (point_fx d x y z r a).
Lemma point_entries d x y z r a : (d <= 5)%nat ->
  point_fx d x y z r a = map (fun p => Mul p (nfx d r a)) (polys d x y z r a).
Proof. intros H. destruct d as [|[|[|[|[|[|d]]]]]]; try lia; reflexivity. Qed.
Definition cof (d : nat) : Z := match d with 0%nat => 1 | 1%nat => 4 | 2%nat => 6 | 3%nat => 50 | 4%nat => 108 | _ => 380 end%Z.
Definition fac (d : nat) : Z := match d with 0%nat => 1 | 1%nat => 1 | 2%nat => 3 | 3%nat => 3 | 4%nat => 15 | _ => 45 end%Z.

Lemma point_checks d q x y z h a : (d <= 5)%nat ->
  let X := Sub (Num x) (Num (fst q)) in let Y := Sub (Num y) (Num (snd q)) in
  let Z := Add (Num z) (Mul (Lit 0) (Num h)) in let r := fx_r X Y Z in
  let av := Mul (Num a) Volt in
  Forall (fun e => exists k, err e = Some k /\ (k <= 83)%nat) (point_fx d X Y Z r av) /\
  (d = 0%nat -> Forall (fun e => cls e = Some 21%nat) (point_fx d X Y Z r av)) /\
  Forall (fun p => exists c, bd p = Some (c, S d) /\ (c <= cof d)%Z) (polys d X Y Z r av) /\
  (exists k, cls (nfx d r av) = Some k) /\
  (forall v rho, Rabs (feval exact v X) <= rho -> Rabs (feval exact v Y) <= rho ->
     Rabs (feval exact v Z) <= rho -> Rabs (feval exact v r) <= rho ->
     Forall (leaves v rho) (polys d X Y Z r av)).
Proof.
  intros Hd X Y Z r av.
  destruct d as [|[|[|[|[|[|d]]]]]]; try lia.
  all: split; [repeat constructor; eexists; (split; [vm_compute; reflexivity|lia])|].
  all: split; [intros E; try discriminate; repeat constructor|].
  all: split; [unfold polys; cbn [point_fx point_fx0 point_fx1 point_fx2 point_fx3 point_fx4 point_fx5 map left_of];
               repeat constructor; eexists; (split; [vm_compute; reflexivity|vm_compute; discriminate])|].
  all: split; [eexists; vm_compute; reflexivity|].
  all: intros v rho H1 H2 H3 H4; unfold polys;
       cbn [point_fx point_fx0 point_fx1 point_fx2 point_fx3 point_fx4 point_fx5 map left_of];
       repeat apply Forall_cons; try apply Forall_nil; repeat split; assumption.
Qed.

Lemma nfx_exact d v r a : (d <= 5)%nat -> 0 < feval exact v r ->
  Rabs (feval exact v (nfx d r a)) =
  IZR (fac d) * Rabs (feval exact v a) / (2 * PI * feval exact v r ^ (S d + (d + 2))).
Proof.
  intros Hd Hr. set (rr := feval exact v r) in *. set (aa := feval exact v a). pose proof PI_RGT_0 as Hpi.
  assert (G : forall c k, 0 < c -> Rabs (aa / (2 * PI / c * rr ^ k)) = c * Rabs aa / (2 * PI * rr ^ k)).
  { intros c k Hc. assert (0 < rr ^ k) by (apply pow_lt; exact Hr).
    assert (0 < 2 * PI / c * rr ^ k) by (apply Rmult_lt_0_compat; [apply Rdiv_lt_0_compat; lra|assumption]).
    unfold Rdiv at 1. rewrite Rabs_mult, Rabs_inv, (Rabs_pos_eq (2 * PI / c * rr ^ k)) by lra. field. lra. }
  assert (G1 : forall k, Rabs (aa / (2 * PI * rr ^ k)) = 1 * Rabs aa / (2 * PI * rr ^ k)).
  { intros k. rewrite <- (G 1 k) by lra. f_equal. f_equal. field. }
  destruct d as [|[|[|[|[|[|d]]]]]]; try lia;
    cbn [nfx feval exact rnd lpow lpi fac]; fold rr; fold aa; cbn [Nat.add];
    [apply G1|apply G1|apply G; lra..].
Qed.
Lemma mag_last v p n k : cls n = Some k -> mag v (Mul p n) <= mag v p * Rabs (feval exact v n).
Proof.
  intros C. assert (M : mag v n = Rabs (feval exact v n)) by (destruct n; cbn [mag]; rewrite C; reflexivity).
  cbn [mag]. destruct (cls (Mul p n)) as [k0|] eqn:E.
  - cbn [cls] in E. destruct (cls p) as [kp|] eqn:P; [|discriminate].
    assert (M' : mag v p = Rabs (feval exact v p)) by (destruct p; cbn [mag]; rewrite P; reflexivity).
    rewrite M'. cbn [feval exact rnd]. rewrite Rabs_mult. apply Rle_refl.
  - rewrite M. apply Rle_refl.
Qed.

Lemma comp_le a b c : Rabs a <= sqrt (a ^ 2 + b ^ 2 + c ^ 2).
Proof.
  rewrite <- sqrt_Rsqr_abs. apply sqrt_le_1_alt. unfold Rsqr. pose proof (pow2_ge_0 b). pose proof (pow2_ge_0 c). lra.
Qed.

(** the entries of one pixel: error and size *)
Lemma pixel_entry A d v x (q : p2) h a e :
  (forall x, near 1 (rnd A x) x) -> (forall x n, near 2 (lpow A x n) (x ^ n)) -> near 1 (lpi A) PI ->
  (d <= 5)%nat -> 0 < pz x ->
  In e (point_fx d (fx_x x q) (fx_y x q) (fx_z x 0 h) (fx_r (fx_x x q) (fx_y x q) (fx_z x 0 h)) (Mul (Num a) Volt)) ->
  bounded 83 (feval A v e) (feval exact v e) (amp d * (Rabs (v * a) / (2 * PI * dist x q ^ (d + 2)))) /\
  (d = 0%nat -> bounded 21 (feval A v e) (feval exact v e) (Rabs (v * a) * pz x / (2 * PI * dist x q ^ 3))).
Proof.
  intros Hr Hp Hpi Hd Hz He.
  destruct (point_checks d q (px x) (py x) (pz x) h a Hd) as (K1 & K2 & K3 & [kn Kn] & K4). cbv zeta in *.
  change (Add (Num (pz x)) (Mul (Lit 0) (Num h))) with (fx_z x 0 h) in *.
  change (Sub (Num (px x)) (Num (fst q))) with (fx_x x q) in *.
  change (Sub (Num (py x)) (Num (snd q))) with (fx_y x q) in *.
  set (X := fx_x x q) in *. set (Y := fx_y x q) in *. set (Z := fx_z x 0 h) in *. set (r := fx_r X Y Z) in *.
  set (av := Mul (Num a) Volt) in *.
  assert (EX : feval exact v X = px x - fst q) by reflexivity.
  assert (EY : feval exact v Y = py x - snd q) by reflexivity.
  assert (EZ : feval exact v Z = pz x) by (unfold Z; rewrite z_exact; ring).
  assert (ER : feval exact v r = dist x q).
  { unfold r, fx_r. cbn [feval exact rnd lpow]. change (feval (Arith (fun x => x) pow _ PI)) with (feval exact).
    rewrite EX, EY, EZ. reflexivity. }
  assert (Hd0 : 0 < dist x q).
  { unfold dist. apply sqrt_lt_R0. pose proof (pow2_ge_0 (px x - fst q)). pose proof (pow2_ge_0 (py x - snd q)).
    assert (0 < pz x ^ 2) by (apply pow_lt; exact Hz). lra. }
  assert (EA : Rabs (feval exact v av) = Rabs (v * a)) by (cbn; f_equal; ring).
  pose proof PI_RGT_0 as PIp.
  split.
  - rewrite Forall_forall in K1. destruct (K1 e He) as [k [Ek Hk]].
    assert (B : bounded 83 (feval A v e) (feval exact v e) (mag v e)).
    { apply (bounded_weak k); [exact Hk|]. apply err_bounded; assumption. }
    assert (M : mag v e <= amp d * (Rabs (v * a) / (2 * PI * dist x q ^ (d + 2)))).
    { rewrite (point_entries d X Y Z r av Hd) in He. apply in_map_iff in He as [p [<- Hp']].
      eapply Rle_trans; [apply (mag_last v p _ kn Kn)|].
      rewrite (nfx_exact d v r av Hd) by (rewrite ER; exact Hd0). rewrite EA, ER.
      rewrite Forall_forall in K3. destruct (K3 p Hp') as [c [Bp Hc]].
      assert (Lf : Forall (leaves v (dist x q)) (polys d X Y Z r av)).
      { apply K4; rewrite ?EX, ?EY, ?EZ, ?ER; unfold dist.
        - apply comp_le.
        - rewrite (Rplus_comm ((px x - fst q) ^ 2)). apply comp_le.
        - rewrite Rplus_comm, <- Rplus_assoc. apply comp_le.
        - rewrite Rabs_pos_eq by apply sqrt_pos. apply Rle_refl. }
      rewrite Forall_forall in Lf. pose proof (bd_mag v (dist x q) p _ Bp (Lf p Hp')) as Sz.
      unfold size_ok in Sz. cbn [fst snd] in Sz.
      set (D := dist x q) in *.
      assert (P1 : 0 < D ^ S d) by (apply pow_lt; exact Hd0).
      assert (P2 : 0 < D ^ (d + 2)) by (apply pow_lt; exact Hd0).
      assert (F : 0 < IZR (fac d)) by (apply IZR_lt; destruct d as [|[|[|[|[|d]]]]]; reflexivity).
      assert (Am : amp d = IZR (cof d) * IZR (fac d)).
      { rewrite <- mult_IZR. destruct d as [|[|[|[|[|d]]]]]; reflexivity. }
      rewrite pow_add.
      apply Rle_trans with (IZR (cof d) * D ^ S d * (IZR (fac d) * Rabs (v * a) / (2 * PI * (D ^ S d * D ^ (d + 2))))).
      - apply Rmult_le_compat_r.
        + apply Rmult_le_pos; [apply Rmult_le_pos; [lra|apply Rabs_pos]|].
          left. apply Rinv_0_lt_compat. apply Rmult_lt_0_compat; [lra|]. apply Rmult_lt_0_compat; assumption.
        + eapply Rle_trans; [exact Sz|]. apply Rmult_le_compat_r; [lra|]. apply IZR_le, Hc.
      - rewrite Am. right. field. repeat split; lra. }
    destruct B as [B1 B2]. split; [|lra]. eapply Rle_trans; [exact B1|].
    apply Rmult_le_compat_l; [apply gam_pos|exact M].
  - intros E. specialize (K2 E). subst d. rewrite Forall_forall in K2. pose proof (K2 e He) as C.
    assert (B : Rabs (feval A v e - feval exact v e) <= gam 21 * Rabs (feval exact v e))
      by (apply near_abs, cls_near; assumption).
    assert (V : Rabs (feval exact v e) = Rabs (v * a) * pz x / (2 * PI * dist x q ^ 3)).
    { destruct He as [<-|[]]. change (Rabs (feval exact v Z * feval exact v (nfx 0 r av)) = Rabs (v * a) * pz x / (2 * PI * dist x q ^ 3)).
      rewrite Rabs_mult, (nfx_exact 0 v r av) by (lia || (rewrite ER; exact Hd0)).
      rewrite EA, ER, EZ, (Rabs_pos_eq (pz x)) by lra. cbn [Nat.add fac]. field. split; lra. }
    rewrite V in B. split; [exact B|rewrite V; apply Rle_refl].
Qed.
