(** Derivatives of z G_00 along an edge as polynomials in the coordinates
    relative to the end points and in the closed forms [G a b]. *)
From Coquelicot Require Import Coquelicot.
From Coq Require Import Permutation.
From Verif Require Import Base ModelExpr ModelUtils ModelField SpecTensor SpecField
  ProofTensor ProofField ProofPixel ProofDeriv ProofSys ProofEdgeG.
Open Scope R_scope.
Notation length := List.length.

(** c x1^e1 x2^e2 y1^e3 y2^e4 z^e5 G_ab *)
Inductive mono := M (c : Z) (e1 e2 e3 e4 e5 a b : nat).
Definition evalm (x1 x2 y1 y2 z : R) (g : nat -> nat -> R) (m : mono) : R :=
  let 'M c e1 e2 e3 e4 e5 a b := m in
  IZR c * x1 ^ e1 * x2 ^ e2 * y1 ^ e3 * y2 ^ e4 * z ^ e5 * g a b.
Definition evalp x1 x2 y1 y2 z g (p : list mono) : R := sum_over p (evalm x1 x2 y1 y2 z g).

Definition same (m n : mono) : bool :=
  let 'M _ e1 e2 e3 e4 e5 a b := m in
  let 'M _ f1 f2 f3 f4 f5 a' b' := n in
  Nat.eqb e1 f1 && Nat.eqb e2 f2 && Nat.eqb e3 f3 && Nat.eqb e4 f4 && Nat.eqb e5 f5 &&
  Nat.eqb a a' && Nat.eqb b b'.
Definition coef (m : mono) : Z := let 'M c _ _ _ _ _ _ _ := m in c.
Definition addc (m : mono) (k : Z) : mono :=
  let 'M c e1 e2 e3 e4 e5 a b := m in M (c + k) e1 e2 e3 e4 e5 a b.
Fixpoint ins (m : mono) (p : list mono) : list mono :=
  match p with
  | [] => [m]
  | n :: p' => if same m n then addc n (coef m) :: p' else n :: ins m p'
  end.
Definition norm (p : list mono) : list mono := fold_right ins [] p.

Definition dpow (c : Z) (e : nat) (f : Z -> nat -> mono) : list mono :=
  match e with O => [] | S e' => [f (c * Z.of_nat e)%Z e'] end.
Definition dmono (k : nat) (m : mono) : list mono :=
  let 'M c e1 e2 e3 e4 e5 a b := m in
  match k with
  | 0%nat => dpow c e1 (fun c e => M c e e2 e3 e4 e5 a b) ++ dpow c e2 (fun c e => M c e1 e e3 e4 e5 a b)
         ++ [M c (S e1) e2 e3 e4 e5 (S a) b; M c e1 (S e2) e3 e4 e5 a (S b)]
  | 1%nat => dpow c e3 (fun c e => M c e1 e2 e e4 e5 a b) ++ dpow c e4 (fun c e => M c e1 e2 e3 e e5 a b)
         ++ [M c e1 e2 (S e3) e4 e5 (S a) b; M c e1 e2 e3 (S e4) e5 a (S b)]
  | _ => dpow c e5 (fun c e => M c e1 e2 e3 e4 e a b)
         ++ [M c e1 e2 e3 e4 (S e5) (S a) b; M c e1 e2 e3 e4 (S e5) a (S b)]
  end.
Definition dpoly (k : nat) (p : list mono) : list mono := norm (flat_map (dmono k) p).
(** d^idx (z G_00) *)
Definition P (idx : list nat) : list mono :=
  fold_right dpoly [M 1 0 0 0 0 1 0 0] (sorted idx).
Definition gdeg (m : mono) : nat := let 'M _ _ _ _ _ _ a b := m in (a + b)%nat.

Lemma same_eval x1 x2 y1 y2 z g m n : same m n = true ->
  evalm x1 x2 y1 y2 z g (addc n (coef m)) = evalm x1 x2 y1 y2 z g m + evalm x1 x2 y1 y2 z g n.
Proof.
  destruct m as [c e1 e2 e3 e4 e5 a b], n as [c' f1 f2 f3 f4 f5 a' b']. cbn [same coef addc evalm].
  intros H. repeat (apply andb_prop in H; destruct H as [H ?]).
  repeat match goal with H : Nat.eqb _ _ = true |- _ => apply Nat.eqb_eq in H end. subst.
  rewrite plus_IZR. ring.
Qed.
Lemma ins_eval x1 x2 y1 y2 z g m p :
  evalp x1 x2 y1 y2 z g (ins m p) = evalm x1 x2 y1 y2 z g m + evalp x1 x2 y1 y2 z g p.
Proof.
  unfold evalp. induction p as [|n p IH]; cbn [ins]; [reflexivity|].
  destruct (same m n) eqn:E; rewrite !sum_cons; [rewrite same_eval by exact E; ring|rewrite IH; ring].
Qed.
Lemma norm_eval x1 x2 y1 y2 z g p : evalp x1 x2 y1 y2 z g (norm p) = evalp x1 x2 y1 y2 z g p.
Proof.
  unfold norm. induction p as [|m p IH]; cbn [fold_right]; [reflexivity|].
  rewrite ins_eval, IH. unfold evalp. now rewrite sum_cons.
Qed.

Lemma dpow_eval x1 x2 y1 y2 z g c e f h : (forall c e, evalm x1 x2 y1 y2 z g (f c e) = IZR c * h e) ->
  evalp x1 x2 y1 y2 z g (dpow c e f) = IZR c * INR e * h (pred e).
Proof.
  intros H. destruct e as [|e]; cbn [dpow pred].
  - unfold evalp, sum_over. cbn. ring.
  - unfold evalp. rewrite sum_cons, H, mult_IZR, <- INR_IZR_INZ. unfold sum_over. cbn [map sumR]. ring.
Qed.
Lemma evalp_app x1 x2 y1 y2 z g p q :
  evalp x1 x2 y1 y2 z g (p ++ q) = evalp x1 x2 y1 y2 z g p + evalp x1 x2 y1 y2 z g q.
Proof. apply sum_app. Qed.
Lemma evalp_cons x1 x2 y1 y2 z g m q :
  evalp x1 x2 y1 y2 z g (m :: q) = evalm x1 x2 y1 y2 z g m + evalp x1 x2 y1 y2 z g q.
Proof. apply sum_cons. Qed.
Lemma evalp_nil x1 x2 y1 y2 z g : evalp x1 x2 y1 y2 z g [] = 0.
Proof. reflexivity. Qed.

(** the displacement of the coordinates along axis [k] *)
Definition dx (k : nat) : R := match k with 0%nat => 1 | _ => 0 end.
Definition dy (k : nat) : R := match k with 1%nat => 1 | _ => 0 end.
Definition dz (k : nat) : R := match k with 0%nat | 1%nat => 0 | _ => 1 end.
Ltac Rring := match goal with |- ?u = ?v => change (@eq R u v) end; ring.
Lemma mono_derive (c x1 x2 y1 y2 z k1 k2 k3 d : R) e1 e2 e3 e4 e5 (u : R -> R) :
  is_derive u 0 d ->
  is_derive (fun t => c * (x1 + t * k1) ^ e1 * (x2 + t * k1) ^ e2 * (y1 + t * k2) ^ e3 * (y2 + t * k2) ^ e4
      * (z + t * k3) ^ e5 * u t) 0
   (c * (INR e1 * k1 * x1 ^ pred e1) * x2 ^ e2 * y1 ^ e3 * y2 ^ e4 * z ^ e5 * u 0 +
    c * x1 ^ e1 * (INR e2 * k1 * x2 ^ pred e2) * y1 ^ e3 * y2 ^ e4 * z ^ e5 * u 0 +
    c * x1 ^ e1 * x2 ^ e2 * (INR e3 * k2 * y1 ^ pred e3) * y2 ^ e4 * z ^ e5 * u 0 +
    c * x1 ^ e1 * x2 ^ e2 * y1 ^ e3 * (INR e4 * k2 * y2 ^ pred e4) * z ^ e5 * u 0 +
    c * x1 ^ e1 * x2 ^ e2 * y1 ^ e3 * y2 ^ e4 * (INR e5 * k3 * z ^ pred e5) * u 0 +
    c * x1 ^ e1 * x2 ^ e2 * y1 ^ e3 * y2 ^ e4 * z ^ e5 * d).
Proof.
  intros H.
  assert (L : forall a k e, is_derive (fun t => (a + t * k) ^ e) 0 (INR e * k * a ^ pred e)).
  { intros a k e. auto_derive; [exact I|]. rewrite !Rmult_0_l, !Rplus_0_r.
    match goal with |- ?u = ?v => change (@eq R u v) end. ring. }
  assert (MU : forall f g df dg, is_derive f 0 df -> is_derive g 0 dg ->
     is_derive (fun t : R => f t * g t) 0 (df * g 0 + f 0 * dg)).
  { intros f g df dg Hf Hg. apply (is_derive_mult f g 0 df dg Hf Hg). intros; apply Rmult_comm. }
  eapply is_derive_eq.
  - apply MU; [|exact H]. apply MU; [|apply L]. apply MU; [|apply L]. apply MU; [|apply L].
    apply MU; [|apply L]. apply MU; [apply (is_derive_const (K := R_AbsRing) (V := R_NormedModule))|apply L].
  - cbn beta. rewrite !Rmult_0_l, !Rplus_0_r. change (@zero R_NormedModule) with 0.
    match goal with |- ?u = ?v => change (@eq R u v) end. ring.
Qed.
Lemma dmono_derive k x1 x2 y1 y2 z (g : R -> nat -> nat -> R) m :
  (k < 3)%nat ->
  (let 'M _ _ _ _ _ _ a b := m in is_derive (fun t => g t a b) 0
     ((x1 * dx k + y1 * dy k + z * dz k) * g 0 (S a) b + (x2 * dx k + y2 * dy k + z * dz k) * g 0 a (S b))) ->
  is_derive (fun t => evalm (x1 + t * dx k) (x2 + t * dx k) (y1 + t * dy k) (y2 + t * dy k) (z + t * dz k) (g t) m)
    0 (evalp x1 x2 y1 y2 z (g 0) (dmono k m)).
Proof.
  destruct m as [c e1 e2 e3 e4 e5 a b]. intros Hk Hg.
  cbn [evalm]. eapply is_derive_eq; [apply mono_derive; exact Hg|].
  destruct k as [|[|[|k]]]; [| | |lia]; cbn [dmono dx dy dz] in *; rewrite ?evalp_app.
  - rewrite (dpow_eval _ _ _ _ _ _ c e1 _ (fun e => x1 ^ e * x2 ^ e2 * y1 ^ e3 * y2 ^ e4 * z ^ e5 * g 0 a b))
      by (intros; cbn [evalm]; ring).
    rewrite (dpow_eval _ _ _ _ _ _ c e2 _ (fun e => x1 ^ e1 * x2 ^ e * y1 ^ e3 * y2 ^ e4 * z ^ e5 * g 0 a b))
      by (intros; cbn [evalm]; ring).
    rewrite !evalp_cons, evalp_nil. cbn [evalm pow]. Rring.
  - rewrite (dpow_eval _ _ _ _ _ _ c e3 _ (fun e => x1 ^ e1 * x2 ^ e2 * y1 ^ e * y2 ^ e4 * z ^ e5 * g 0 a b))
      by (intros; cbn [evalm]; ring).
    rewrite (dpow_eval _ _ _ _ _ _ c e4 _ (fun e => x1 ^ e1 * x2 ^ e2 * y1 ^ e3 * y2 ^ e * z ^ e5 * g 0 a b))
      by (intros; cbn [evalm]; ring).
    rewrite !evalp_cons, evalp_nil. cbn [evalm pow]. Rring.
  - rewrite (dpow_eval _ _ _ _ _ _ c e5 _ (fun e => x1 ^ e1 * x2 ^ e2 * y1 ^ e3 * y2 ^ e4 * z ^ e * g 0 a b))
      by (intros; cbn [evalm]; ring).
    rewrite !evalp_cons, evalp_nil. cbn [evalm pow]. Rring.
Qed.

Lemma is_derive_sum {A} (l : list A) (f : A -> R -> R) (d : A -> R) :
  (forall a, In a l -> is_derive (f a) 0 (d a)) ->
  is_derive (fun t => sum_over l (fun a => f a t)) 0 (sum_over l d).
Proof.
  induction l as [|x l IH]; intros H.
  - change (is_derive (fun _ : R => 0) 0 0). apply (is_derive_const (K := R_AbsRing) (V := R_NormedModule)).
  - change (is_derive (fun t => f x t + sum_over l (fun a => f a t)) 0 (d x + sum_over l d)).
    apply (is_derive_plus (V := R_NormedModule)); [apply H; now left|apply IH; intros; apply H; now right].
Qed.

(** ** One edge *)
Definition l2of (v1 v2 : p2) : R := (fst v1 - fst v2) ^ 2 + (snd v1 - snd v2) ^ 2.
Definition Gp (v1 v2 : p2) (p : p3) (a b : nat) : R := G a b (dist p v1) (dist p v2) (l2of v1 v2).
Definition ep (v1 v2 : p2) (p : p3) (q : list mono) : R :=
  evalp (px p - fst v1) (px p - fst v2) (py p - snd v1) (py p - snd v2) (pz p) (Gp v1 v2 p) q.

Lemma dist_pos p v : pz p <> 0 -> 0 < dist p v.
Proof. intros H. apply sqrt_lt_R0. pose proof (pow2_gt_0 _ H).
  pose proof (pow2_ge_0 (px p - fst v)). pose proof (pow2_ge_0 (py p - snd v)). lra. Qed.
Lemma dist_sq p v : dist p v ^ 2 = (px p - fst v) ^ 2 + (py p - snd v) ^ 2 + pz p ^ 2.
Proof. unfold dist. rewrite pow2_sqrt; [reflexivity|].
  pose proof (pow2_ge_0 (pz p)).
  pose proof (pow2_ge_0 (px p - fst v)). pose proof (pow2_ge_0 (py p - snd v)). lra. Qed.
(** (r1+r2)^2 - l2 >= 4 z^2 *)
Lemma L_pos v1 v2 p : pz p <> 0 -> 0 < Lof (dist p v1) (dist p v2) (l2of v1 v2).
Proof.
  intros H. pose proof (dist_pos p v1 H) as H1. pose proof (dist_pos p v2 H) as H2.
  pose proof (dist_sq p v1) as E1. pose proof (dist_sq p v2) as E2.
  pose proof (pow2_gt_0 _ H) as Hz. unfold Lof, l2of.
  set (r1 := dist p v1) in *. set (r2 := dist p v2) in *.
  set (x1 := px p - fst v1) in *. set (x2 := px p - fst v2) in *.
  set (y1 := py p - snd v1) in *. set (y2 := py p - snd v2) in *. set (z := pz p) in *.
  replace (fst v1 - fst v2) with (x2 - x1) by (unfold x1, x2; ring).
  replace (snd v1 - snd v2) with (y2 - y1) by (unfold y1, y2; ring).
  assert (C : - x1 * x2 - y1 * y2 + z ^ 2 <= r1 * r2).
  { apply Rsqr_incr_0_var; [|nra]. unfold Rsqr.
    replace (r1 * r2 * (r1 * r2)) with (r1 ^ 2 * r2 ^ 2) by ring. rewrite E1, E2.
    pose proof (pow2_ge_0 (x1 * y2 - y1 * x2)). pose proof (pow2_ge_0 (x1 * z + z * x2)).
    pose proof (pow2_ge_0 (y1 * z + z * y2)). nra. }
  nra.
Qed.
Lemma px_move k t p : (k < 3)%nat -> px (move k t p) = px p + t * dx k.
Proof. intros H. destruct k as [|[|[|k]]]; [| | |lia]; cbn; ring. Qed.
Lemma py_move k t p : (k < 3)%nat -> py (move k t p) = py p + t * dy k.
Proof. intros H. destruct k as [|[|[|k]]]; [| | |lia]; cbn; ring. Qed.
Lemma pz_move k t p : (k < 3)%nat -> pz (move k t p) = pz p + t * dz k.
Proof. intros H. destruct k as [|[|[|k]]]; [| | |lia]; cbn; ring. Qed.
Lemma dist_derive k p v : (k < 3)%nat -> pz p <> 0 ->
  partial (fun q => dist q v) k p
    (((px p - fst v) * dx k + (py p - snd v) * dy k + pz p * dz k) / dist p v).
Proof.
  intros Hk Hz. pose proof (dist_pos p v Hz) as Hd. unfold partial, dist in *.
  eapply is_derive_ext.
  { intros t. rewrite (px_move k t p Hk), (py_move k t p Hk), (pz_move k t p Hk). reflexivity. }
  assert (0 < (px p - fst v) ^ 2 + (py p - snd v) ^ 2 + pz p ^ 2).
  { pose proof (pow2_gt_0 _ Hz).
    pose proof (pow2_ge_0 (px p - fst v)). pose proof (pow2_ge_0 (py p - snd v)). lra. }
  auto_derive.
  - rewrite !Rmult_0_l, !Rplus_0_r. unfold Rminus in *. lra.
  - rewrite !Rmult_0_l, !Rplus_0_r. unfold Rminus in *.
    match goal with |- ?u = ?v => change (@eq R u v) end.
    cbn [pow] in *. field. lra.
Qed.
Lemma Gp_derive a b v1 v2 k p : (a + b <= 3)%nat -> (k < 3)%nat -> pz p <> 0 ->
  partial (fun q => Gp v1 v2 q a b) k p
    (((px p - fst v1) * dx k + (py p - snd v1) * dy k + pz p * dz k) * Gp v1 v2 p (S a) b +
     ((px p - fst v2) * dx k + (py p - snd v2) * dy k + pz p * dz k) * Gp v1 v2 p a (S b)).
Proof.
  intros Hab Hk Hz. unfold partial, Gp.
  apply (G_derive a b (fun t => dist (move k t p) v1) (fun t => dist (move k t p) v2)); auto.
  - now rewrite move_zero.
  - now rewrite move_zero.
  - now apply dist_pos.
  - now apply dist_pos.
  - now apply L_pos.
  - now apply dist_derive.
  - now apply dist_derive.
Qed.
Lemma ep_derive q v1 v2 k p : Forall (fun m => (gdeg m <= 3)%nat) q -> (k < 3)%nat -> pz p <> 0 ->
  partial (fun r => ep v1 v2 r q) k p (ep v1 v2 p (dpoly k q)).
Proof.
  intros Hq Hk Hz. unfold ep at 2. unfold dpoly. rewrite norm_eval.
  unfold partial, ep.
  replace (evalp (px p - fst v1) (px p - fst v2) (py p - snd v1) (py p - snd v2) (pz p) (Gp v1 v2 p)
    (flat_map (dmono k) q)) with (sum_over q (fun m =>
     evalp (px p - fst v1) (px p - fst v2) (py p - snd v1) (py p - snd v2) (pz p) (Gp v1 v2 p) (dmono k m)))
   by (unfold evalp; now rewrite sum_flat).
  eapply is_derive_ext.
  { intros t. unfold evalp. rewrite (px_move k t p Hk), (py_move k t p Hk), (pz_move k t p Hk).
    replace (px p + t * dx k - fst v1) with (px p - fst v1 + t * dx k) by ring.
    replace (px p + t * dx k - fst v2) with (px p - fst v2 + t * dx k) by ring.
    replace (py p + t * dy k - snd v1) with (py p - snd v1 + t * dy k) by ring.
    replace (py p + t * dy k - snd v2) with (py p - snd v2 + t * dy k) by ring. reflexivity. }
  apply (is_derive_sum q (fun m t => evalm (px p - fst v1 + t * dx k) (px p - fst v2 + t * dx k)
     (py p - snd v1 + t * dy k) (py p - snd v2 + t * dy k) (pz p + t * dz k) (Gp v1 v2 (move k t p)) m)).
  intros m Hm. rewrite Forall_forall in Hq. specialize (Hq m Hm).
  pose proof (dmono_derive k (px p - fst v1) (px p - fst v2) (py p - snd v1) (py p - snd v2) (pz p)
    (fun t => Gp v1 v2 (move k t p)) m Hk) as X.
  cbn beta in X. rewrite move_zero in X. apply X.
  destruct m as [c e1 e2 e3 e4 e5 a b]. now apply Gp_derive.
Qed.

(** the polynomials of all indices of order <= 4 *)
Definition mono_eqb (m n : mono) : bool := same m n && Z.eqb (coef m) (coef n).
Fixpoint in_poly (m : mono) (p : list mono) : bool :=
  match p with [] => false | n :: p' => mono_eqb m n || in_poly m p' end.
Fixpoint remove_mono (m : mono) (p : list mono) : list mono :=
  match p with [] => [] | n :: p' => if mono_eqb m n then p' else n :: remove_mono m p' end.
Fixpoint poly_eqb (p q : list mono) : bool :=
  match p with
  | [] => match q with [] => true | _ => false end
  | m :: p' => in_poly m q && poly_eqb p' (remove_mono m q)
  end.
Lemma mono_eqb_eq m n : mono_eqb m n = true -> m = n.
Proof.
  unfold mono_eqb. destruct m as [c e1 e2 e3 e4 e5 a b], n as [c' f1 f2 f3 f4 f5 a' b']. cbn [same coef].
  intros H. repeat (apply andb_prop in H; destruct H as [H ?]).
  repeat match goal with H : Nat.eqb _ _ = true |- _ => apply Nat.eqb_eq in H end.
  apply Z.eqb_eq in H0. now subst.
Qed.
Lemma remove_eval x1 x2 y1 y2 z g m p : in_poly m p = true ->
  evalp x1 x2 y1 y2 z g p = evalm x1 x2 y1 y2 z g m + evalp x1 x2 y1 y2 z g (remove_mono m p).
Proof.
  induction p as [|n p IH]; cbn [in_poly remove_mono]; intros H; [discriminate|].
  destruct (mono_eqb m n) eqn:E.
  - apply mono_eqb_eq in E. subst. apply evalp_cons.
  - cbn [orb] in H. rewrite !evalp_cons, IH by exact H. ring.
Qed.
Lemma poly_eqb_eval x1 x2 y1 y2 z g p : forall q, poly_eqb p q = true ->
  evalp x1 x2 y1 y2 z g p = evalp x1 x2 y1 y2 z g q.
Proof.
  induction p as [|m p IH]; intros q; cbn [poly_eqb].
  - destruct q; [reflexivity|discriminate].
  - intros H. apply andb_prop in H. destruct H as [H1 H2].
    rewrite evalp_cons, (IH _ H2). symmetry. now apply remove_eval.
Qed.
Lemma P_check :
  forallb (fun m => forallb (fun k => forallb (fun idx =>
     poly_eqb (dpoly k (P idx)) (P (k :: idx)) && forallb (fun m => Nat.leb (gdeg m) 3) (P idx))
    (product3 m)) [0; 1; 2]%nat) (seq 0 4) = true.
Proof. vm_compute. reflexivity. Qed.

(** the tensor d^idx (z G_00) of an edge *)
Definition E (v1 v2 : p2) (idx : list nat) (p : p3) : R := ep v1 v2 p (P idx).
Lemma E_derive v1 v2 m idx k p : (m <= 3)%nat -> idx_of_order m idx -> (k < 3)%nat -> pz p <> 0 ->
  partial (E v1 v2 idx) k p (E v1 v2 (k :: idx) p).
Proof.
  intros Hm Hi Hk Hz. pose proof P_check as H. rewrite forallb_forall in H.
  specialize (H m ltac:(apply in_seq; lia)). rewrite forallb_forall in H.
  specialize (H k ltac:(cbn; lia)). rewrite forallb_forall in H.
  specialize (H idx (proj2 (product3_in m idx) Hi)). apply andb_prop in H. destruct H as [H1 H2].
  unfold E. replace (ep v1 v2 p (P (k :: idx))) with (ep v1 v2 p (dpoly k (P idx)))
    by (unfold ep; now apply poly_eqb_eval).
  apply ep_derive; auto. rewrite forallb_forall in H2. apply Forall_forall.
  intros q Hq. apply Nat.leb_le. now apply H2.
Qed.
Lemma E_perm v1 v2 i j p : Permutation i j -> E v1 v2 i p = E v1 v2 j p.
Proof. intros H. unfold E, P. now rewrite (sorted_eq i j H). Qed.
