(** Symmetry and trace of the edge tensors, up to terms that depend on one
    vertex only and cancel along a closed path. *)
From Coquelicot Require Import Coquelicot.
From Coq Require Import Permutation.
From Verif Require Import Base ModelExpr ModelUtils ModelField SpecTensor SpecField
  ProofTensor ProofField ProofPixel ProofDeriv ProofSys ProofEdgeG ProofEdgeP ProofEdgeT ProofEdgeT5.
Open Scope R_scope.
Notation length := List.length.

Lemma partial_unique f g k p a b : pz p <> 0 -> (k < 3)%nat ->
  (forall q, pz q <> 0 -> f q = g q) -> partial f k p a -> partial g k p b -> a = b.
Proof.
  intros Hz Hk HE Hf Hg. unfold partial in *.
  apply is_derive_unique in Hg. rewrite <- Hg. symmetry. apply is_derive_unique.
  eapply is_derive_ext_loc; [|exact Hf].
  assert (HD : exists d : posreal, forall t, Rabs t < d -> pz (move k t p) <> 0).
  { exists (mkposreal _ (Rabs_pos_lt _ Hz)). cbn [pos]. intros t Ht. rewrite pz_move by exact Hk.
    intros Z. assert (K : dz k = 0 \/ dz k = 1) by (destruct k as [|[|k]]; cbn; auto).
    destruct K as [K|K]; rewrite K in Z; [lra|].
    replace t with (- pz p) in Ht by lra. rewrite Rabs_Ropp in Ht. lra. }
  destruct HD as [d HD]. exists d. intros t Ht. apply HE. apply HD.
  change (Rabs (t - 0) < d) in Ht. rewrite Rminus_0_r in Ht. exact Ht.
Qed.

Lemma ep_common n v1 v2 p q : pz p <> 0 -> forallb (fun m => Nat.ltb (gdeg m) n) q = true ->
  ep v1 v2 p q = Den n (dist p v1) (dist p v2) (Lof (dist p v1) (dist p v2) (l2of v1 v2)) *
    evalp (px p - fst v1) (px p - fst v2) (py p - snd v1) (py p - snd v2) (pz p)
      (Nc n (dist p v1) (dist p v2) (Lof (dist p v1) (dist p v2) (l2of v1 v2))) q.
Proof.
  intros Hz Hq. unfold ep.
  change (Gp v1 v2 p) with (fun a b => G a b (dist p v1) (dist p v2) (l2of v1 v2)).
  apply evalp_common; auto; try apply dist_pos; try apply L_pos; exact Hz.
Qed.
Lemma L_eq v1 v2 p : Lof (dist p v1) (dist p v2) (l2of v1 v2) =
  (dist p v1 + dist p v2) ^ 2 - (dist p v1 ^ 2 + dist p v2 ^ 2 - 2 * pz p ^ 2
    - 2 * (px p - fst v1) * (px p - fst v2) - 2 * (py p - snd v1) * (py p - snd v2)).
Proof. unfold Lof. rewrite !dist_sq. unfold l2of. ring. Qed.

(** Laplace *)
Lemma laplace_poly x1 x2 y1 y2 r1 r2 z :
  x1 ^ 2 = r1 ^ 2 - y1 ^ 2 - z ^ 2 -> x2 ^ 2 = r2 ^ 2 - y2 ^ 2 - z ^ 2 ->
  let L := (r1 + r2) ^ 2 - (r1 ^ 2 + r2 ^ 2 - 2 * z ^ 2 - 2 * x1 * x2 - 2 * y1 * y2) in
  evalp x1 x2 y1 y2 z (Nc 3 r1 r2 L) (P [0; 0]%nat) + evalp x1 x2 y1 y2 z (Nc 3 r1 r2 L) (P [1; 1]%nat)
  + evalp x1 x2 y1 y2 z (Nc 3 r1 r2 L) (P [2; 2]%nat) = 0.
Proof.
  intros H1 H2.
  let q := eval vm_compute in (P [0; 0]%nat) in change (P [0; 0]%nat) with q.
  let q := eval vm_compute in (P [1; 1]%nat) in change (P [1; 1]%nat) with q.
  let q := eval vm_compute in (P [2; 2]%nat) in change (P [2; 2]%nat) with q.
  cbv beta iota zeta delta [evalp evalm sum_over sumR map fold_right Nc Gnum Nat.mul Nat.sub Nat.add].
  ring [H1 H2].
Qed.
Lemma idx_cons n k idx : (k < 3)%nat -> idx_of_order n idx -> idx_of_order (S n) (k :: idx).
Proof. intros Hk [H1 H2]. split; [cbn [List.length]; lia|now constructor]. Qed.
Lemma E_laplace v1 v2 n r p : (n <= 2)%nat -> idx_of_order n r -> pz p <> 0 ->
  E v1 v2 (0 :: 0 :: r)%nat p + E v1 v2 (1 :: 1 :: r)%nat p + E v1 v2 (2 :: 2 :: r)%nat p = 0.
Proof.
  revert n p. induction r as [|k r IH]; intros n p Hn [Hl Hr] Hz.
  - unfold E. rewrite !(ep_common 3) by (auto; vm_compute; reflexivity).
    rewrite <- !Rmult_plus_distr_l, L_eq. rewrite laplace_poly; [ring| |];
      rewrite dist_sq; ring.
  - cbn in Hl. destruct n as [|n]; [lia|]. inversion Hr as [|? ? Hk Hr']; subst.
    assert (Hi : idx_of_order n r) by (split; [lia|exact Hr']).
    assert (D : forall j, (j < 3)%nat -> partial (E v1 v2 (j :: j :: r)) k p (E v1 v2 (j :: j :: k :: r) p)).
    { intros j Hj. rewrite (E_perm v1 v2 (j :: j :: k :: r) (k :: j :: j :: r)).
      - apply (E_derive v1 v2 (S (S n))); auto; [lia|]. now repeat apply idx_cons.
      - apply Permutation_sym. change (k :: j :: j :: r) with (k :: [j; j] ++ r).
        change (j :: j :: k :: r) with ([j; j] ++ k :: r). apply Permutation_middle. }
    eapply (partial_unique (fun q => E v1 v2 (0 :: 0 :: r)%nat q + E v1 v2 (1 :: 1 :: r)%nat q +
       E v1 v2 (2 :: 2 :: r)%nat q) (fun _ => 0) k p); auto.
    + intros q Hq. apply (IH n); auto. lia.
    + apply partial_plus; [apply partial_plus|]; apply D; lia.
    + apply partial_zero.
Qed.

(** symmetry in the plane *)
Definition X (v : p2) (n : nat) (r : list nat) (p : p3) : R :=
  expanded n (tab (2 * n + 1) (fun i => pixel_term n v i p)) r.
Lemma E_sym v1 v2 n r p : (n <= 3)%nat -> idx_of_order n r -> pz p <> 0 ->
  (fst v2 - fst v1) * E v1 v2 (0 :: r)%nat p + (snd v2 - snd v1) * E v1 v2 (1 :: r)%nat p =
  PI * (X v1 n r p - X v2 n r p).
Proof.
  revert n p. induction r as [|k r IH]; intros n p Hn [Hl Hr] Hz.
  - cbn in Hl. subst n. unfold X, expanded.
    change (entry 0 []) with (Sel 0). cbn [ent_val]. rewrite !tab_nth by lia.
    unfold pixel_term. cbn [point_expr point_expr0 nth].
    unfold E, ep.
    let q := eval vm_compute in (P [0]%nat) in change (P [0]%nat) with q.
    let q := eval vm_compute in (P [1]%nat) in change (P [1]%nat) with q.
    cbv beta iota zeta delta [evalp evalm sum_over sumR map fold_right].
    pose proof (dist_pos p v1 Hz) as H1. pose proof (dist_pos p v2 Hz) as H2.
    pose proof (L_pos v1 v2 p Hz) as HL. pose proof (L_eq v1 v2 p) as EL.
    pose proof (dist_sq p v1) as S1. pose proof (dist_sq p v2) as S2. pose proof PI_RGT_0.
    set (L := Lof _ _ _) in *. set (r1 := dist p v1) in *. set (r2 := dist p v2) in *.
    set (x1 := px p - fst v1) in *. set (x2 := px p - fst v2) in *.
    set (y1 := py p - snd v1) in *. set (y2 := py p - snd v2) in *. set (z := pz p) in *.
    replace (fst v2 - fst v1) with (x1 - x2) by (unfold x1, x2; ring).
    replace (snd v2 - snd v1) with (y1 - y2) by (unfold y1, y2; ring).
    assert (EL' : L = 2 * (r1 * r2 + z ^ 2 + x1 * x2 + y1 * y2)) by (rewrite EL; ring).
    assert (A1 : (x1 - x2) * x1 + (y1 - y2) * y1 = r1 ^ 2 + r1 * r2 - L / 2)
      by (rewrite EL', S1; field).
    assert (A2 : (x1 - x2) * x2 + (y1 - y2) * y2 = - (r2 ^ 2 + r1 * r2 - L / 2))
      by (rewrite EL', S2; field).
    match goal with |- ?lhs = _ => replace lhs with
      (z * (((x1 - x2) * x1 + (y1 - y2) * y1) * G 1 0 r1 r2 (l2of v1 v2) +
            ((x1 - x2) * x2 + (y1 - y2) * y2) * G 0 1 r1 r2 (l2of v1 v2))) by (unfold Gp; fold r1 r2; ring) end.
    rewrite A1, A2. unfold G. fold L. cbn [Gnum Nat.add Nat.mul]. field. repeat split; lra.
  - cbn in Hl. destruct n as [|n]; [lia|]. inversion Hr as [|? ? Hk Hr']; subst.
    assert (Hi : idx_of_order n r) by (split; [lia|exact Hr']).
    assert (D : forall j, (j < 3)%nat -> partial (E v1 v2 (j :: r)) k p (E v1 v2 (j :: k :: r) p)).
    { intros j Hj. rewrite (E_perm v1 v2 (j :: k :: r) (k :: j :: r)) by constructor.
      apply (E_derive v1 v2 (S n)); auto. now apply idx_cons. }
    assert (DX : forall v, partial (X v n r) k p (X v (S n) (k :: r) p)).
    { intros v. unfold X. apply (RD_expand (fun d i q => pixel_term d v i q)); auto; [lia|].
      apply RD_pixel; [lia|now apply dist_pos]. }
    eapply (partial_unique
       (fun q => (fst v2 - fst v1) * E v1 v2 (0 :: r)%nat q + (snd v2 - snd v1) * E v1 v2 (1 :: r)%nat q)
       (fun q => PI * (X v1 n r q - X v2 n r q)) k p); auto.
    + intros q Hq. apply (IH n); auto. lia.
    + apply partial_plus; apply partial_scal; apply D; lia.
    + apply partial_scal. apply partial_minus; apply DX.
Qed.
