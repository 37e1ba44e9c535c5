(** Proof of C179: derivatives along any direction. *)
From Coquelicot Require Import Coquelicot.
From Verif Require Import Base ModelExpr ModelUtils ModelField SpecTensor SpecField SpecPoly SpecTurn ProofTensor ProofField ProofDeriv ProofSys ProofEdgeP ProofEdge ProofPoly.
Import ListNotations.
Open Scope R_scope.
Notation length := List.length.

Lemma along0 a b c p : along a b c 0 p = p.
Proof. unfold along. rewrite !Rmult_0_r, !Rplus_0_r. destruct p; reflexivity. Qed.
(** the derivatives along all directions are combinations of three numbers *)
Definition dif (f : p3 -> R) (p : p3) : Prop :=
  exists A B C : R, forall a b c, is_derive (fun t => f (along a b c t p)) 0 (a * A + b * B + c * C).
Lemma dif_const k p : dif (fun _ => k) p.
Proof. exists 0, 0, 0. intros a b c. replace (a * 0 + b * 0 + c * 0) with 0 by ring. apply (is_derive_const (V := R_NormedModule) k). Qed.
Lemma dif_px p : dif px p.
Proof. exists 1, 0, 0. intros a b c. unfold along. cbn [px]. auto_derive; [exact Logic.I|ring]. Qed.
Lemma dif_py p : dif py p.
Proof. exists 0, 1, 0. intros a b c. unfold along. cbn [py]. auto_derive; [exact Logic.I|ring]. Qed.
Lemma dif_pz p : dif pz p.
Proof. exists 0, 0, 1. intros a b c. unfold along. cbn [pz]. auto_derive; [exact Logic.I|ring]. Qed.
Lemma dif_plus f g p : dif f p -> dif g p -> dif (fun q => f q + g q) p.
Proof.
  intros (A & B & C & F) (A' & B' & C' & G). exists (A + A'), (B + B'), (C + C'). intros a b c.
  replace (a * (A + A') + b * (B + B') + c * (C + C')) with (plus (a * A + b * B + c * C) (a * A' + b * B' + c * C')) by (unfold plus; cbn; ring).
  exact (is_derive_plus _ _ 0 _ _ (F a b c) (G a b c)).
Qed.
Lemma dif_mult f g p : dif f p -> dif g p -> dif (fun q => f q * g q) p.
Proof.
  intros (A & B & C & F) (A' & B' & C' & G). exists (A * g p + f p * A'), (B * g p + f p * B'), (C * g p + f p * C'). intros a b c.
  pose proof (is_derive_mult _ _ 0 _ _ (F a b c) (G a b c) Rmult_comm) as H. cbv beta in H. rewrite !along0 in H.
  match type of H with is_derive _ _ ?x => match goal with |- is_derive _ _ ?y => replace y with x by (unfold plus, mult; cbn; ring) end end. exact H.
Qed.
Lemma dif_comp (g : R -> R) f p : dif f p -> ex_derive g (f p) -> dif (fun q => g (f q)) p.
Proof.
  intros (A & B & C & F) (l & G). exists (A * l), (B * l), (C * l). intros a b c.
  assert (G' : is_derive g (f (along a b c 0 p)) l) by (rewrite along0; exact G).
  pose proof (is_derive_comp g (fun t => f (along a b c t p)) 0 l _ G' (F a b c)) as H.
  match type of H with is_derive _ _ ?x => match goal with |- is_derive _ _ ?y => replace y with x by (unfold scal; cbn; unfold mult; cbn; ring) end end. exact H.
Qed.
Lemma dif_ext f g p : (forall q, f q = g q) -> dif f p -> dif g p.
Proof. intros E (A & B & C & F). exists A, B, C. intros a b c. apply (is_derive_ext (fun t => f (along a b c t p))); [intros t; apply E|apply F]. Qed.
Lemma dif_opp f p : dif f p -> dif (fun q => - f q) p.
Proof. intros F. apply (dif_ext (fun q => -1 * f q)); [intros q; ring|]. apply dif_mult; [apply dif_const|exact F]. Qed.
Lemma dif_minus f g p : dif f p -> dif g p -> dif (fun q => f q - g q) p.
Proof. intros F G. apply (dif_plus f (fun q => - g q)); [exact F|apply dif_opp, G]. Qed.
Lemma dif_pow f n p : dif f p -> dif (fun q => f q ^ n) p.
Proof. intros F. apply (dif_comp (fun x => x ^ n) f p F). auto_derive. exact Logic.I. Qed.
Lemma dif_inv f p : dif f p -> f p <> 0 -> dif (fun q => / f q) p.
Proof. intros F N. apply (dif_comp Rinv f p F). auto_derive. exact N. Qed.
Lemma dif_div f g p : dif f p -> dif g p -> g p <> 0 -> dif (fun q => f q / g q) p.
Proof. intros F G N. apply (dif_mult f (fun q => / g q)); [exact F|apply dif_inv; assumption]. Qed.
Lemma dif_sqrt f p : dif f p -> 0 < f p -> dif (fun q => sqrt (f q)) p.
Proof. intros F N. apply (dif_comp sqrt f p F). auto_derive. exact N. Qed.
Lemma dif_atan f p : dif f p -> dif (fun q => atan (f q)) p.
Proof. intros F. apply (dif_comp atan f p F). eexists. apply is_derive_Reals. apply derivable_pt_lim_atan. Qed.
Lemma dif_abs f p : dif f p -> f p <> 0 -> dif (fun q => Rabs (f q)) p.
Proof. intros F N. apply (dif_comp Rabs f p F). eexists. apply is_derive_Rabs; [apply is_derive_id|exact N]. Qed.
Lemma dif_sum {A} (l : list A) (f : A -> p3 -> R) p : (forall a, In a l -> dif (f a) p) -> dif (fun q => sum_over l (fun a => f a q)) p.
Proof.
  unfold sum_over. induction l as [|x l IH]; intros H; cbn [map sumR]; [apply dif_const|].
  apply (dif_plus (f x) (fun q => sumR (map (fun a => f a q) l))); [apply H; left; reflexivity|apply IH; intros a I; apply H; right; exact I].
Qed.
Lemma dif_scal k f p : dif f p -> dif (fun q => k * f q) p.
Proof. intros F. apply (dif_mult (fun _ => k)); [apply dif_const|exact F]. Qed.
Lemma dif_partial f p a b c A B C : dif f p -> partial f 0 p A -> partial f 1 p B -> partial f 2 p C -> is_derive (fun t => f (along a b c t p)) 0 (a * A + b * B + c * C).
Proof.
  intros (A' & B' & C' & F) PA PB PC.
  assert (U : forall (g h : R -> R) x y, (forall t, g t = h t) -> is_derive g 0 x -> is_derive h 0 y -> x = y).
  { intros g h x y E G H. apply is_derive_unique in H. rewrite <- H. symmetry. apply is_derive_unique. apply (is_derive_ext g); [exact E|exact G]. }
  assert (EA : 1 * A' + 0 * B' + 0 * C' = A) by (apply (U _ _ _ _ (fun t => f_equal f (eq_trans (f_equal3 P3 (f_equal (Rplus (px p)) (Rmult_1_l t)) (eq_trans (f_equal (Rplus (py p)) (Rmult_0_l t)) (Rplus_0_r _)) (eq_trans (f_equal (Rplus (pz p)) (Rmult_0_l t)) (Rplus_0_r _))) eq_refl)) (F 1 0 0) PA)).
  assert (EB : 0 * A' + 1 * B' + 0 * C' = B) by (apply (U _ _ _ _ (fun t => f_equal f (eq_trans (f_equal3 P3 (eq_trans (f_equal (Rplus (px p)) (Rmult_0_l t)) (Rplus_0_r _)) (f_equal (Rplus (py p)) (Rmult_1_l t)) (eq_trans (f_equal (Rplus (pz p)) (Rmult_0_l t)) (Rplus_0_r _))) eq_refl)) (F 0 1 0) PB)).
  assert (EC : 0 * A' + 0 * B' + 1 * C' = C) by (apply (U _ _ _ _ (fun t => f_equal f (eq_trans (f_equal3 P3 (eq_trans (f_equal (Rplus (px p)) (Rmult_0_l t)) (Rplus_0_r _)) (eq_trans (f_equal (Rplus (py p)) (Rmult_0_l t)) (Rplus_0_r _)) (f_equal (Rplus (pz p)) (Rmult_1_l t))) eq_refl)) (F 0 0 1) PC)).
  replace (a * A + b * B + c * C) with (a * A' + b * B' + c * C') by (rewrite <- EA, <- EB, <- EC; ring). apply F.
Qed.

Ltac difs :=
  repeat first
    [ assumption
    | match goal with |- dif (fun _ => ?k) _ => apply dif_const end
    | match goal with
      | |- dif (fun q => @?f q + @?g q) _ => apply (dif_plus f g)
      | |- dif (fun q => @?f q - @?g q) _ => apply (dif_minus f g)
      | |- dif (fun q => @?f q * @?g q) _ => apply (dif_mult f g)
      | |- dif (fun q => @?f q / @?g q) _ => apply (dif_div f g)
      | |- dif (fun q => - @?f q) _ => apply (dif_opp f)
      | |- dif (fun q => @?f q ^ ?n) _ => apply (dif_pow f n)
      | |- dif (fun q => atan (@?f q)) _ => apply (dif_atan f)
      | |- dif (fun q => Rabs (@?f q)) _ => apply (dif_abs f)
      end ]; cbv beta.
Lemma dif_point X Y Z R1 n i p : (n <= 4)%nat -> dif X p -> dif Y p -> dif Z p -> dif R1 p -> R1 p <> 0 -> dif (fun q => nth i (point_expr n (X q) (Y q) (Z q) (R1 q) 1) 0) p.
Proof.
  intros N DX DY DZ DR NR. pose proof PI_RGT_0 as PP.
  assert (Q : forall m k : nat, forall c, c <> 0 -> c * R1 p ^ m <> 0) by (intros m k c c0; apply Rmult_integral_contrapositive_currified; [exact c0|apply pow_nonzero, NR]).
  destruct n as [|[|[|[|[|n]]]]]; [| | | | |lia]; cbn [point_expr]; unfold point_expr0, point_expr1, point_expr2, point_expr3, point_expr4; cbv zeta;
    repeat (destruct i as [|i]; cbn [nth]; [difs; apply Q; try exact 0%nat; lra|]); destruct i; apply dif_const.
Qed.
Lemma dif_edge X1 X2 Y1 Y2 R1 R2 L Z n i p : (n <= 4)%nat -> dif X1 p -> dif X2 p -> dif Y1 p -> dif Y2 p -> dif R1 p -> dif R2 p -> dif Z p ->
  Z p <> 0 -> R1 p <> 0 -> R2 p <> 0 -> (R1 p + R2 p) ^ 2 - L <> 0 -> R1 p * R2 p + X1 p * X2 p + Y1 p * Y2 p + Rabs (Z p) * (Rabs (Z p) + R1 p + R2 p) <> 0 ->
  dif (fun q => nth i (edge_expr n (X1 q) (X2 q) (Y1 q) (Y2 q) (R1 q) (R2 q) L (Z q) 1) 0) p.
Proof.
  intros N D1 D2 D3 D4 D5 D6 D7 Nz N1 N2 N3 N4. pose proof PI_neq0 as PP.
  assert (Q : forall m, (R1 p * R2 p) ^ m <> 0) by (intros m; apply pow_nonzero, Rmult_integral_contrapositive_currified; assumption).
  assert (Q' : forall m, ((R1 p + R2 p) ^ 2 - L) ^ m <> 0) by (intros m; apply pow_nonzero; assumption).
  assert (Q0 : Rabs (Z p) * (R1 p * R2 p + X1 p * X2 p + Y1 p * Y2 p + Rabs (Z p) * (Rabs (Z p) + R1 p + R2 p)) <> 0) by (apply Rmult_integral_contrapositive_currified; [apply Rabs_no_R0, Nz|exact N4]).
  assert (Q1 : R1 p * R2 p * ((R1 p + R2 p) ^ 2 - L) <> 0) by (repeat apply Rmult_integral_contrapositive_currified; assumption).
  destruct n as [|[|[|[|[|n]]]]]; [| | | | |lia]; cbn [edge_expr]; unfold edge_expr0, edge_expr1, edge_expr2, edge_expr3, edge_expr4; cbv zeta;
    repeat (destruct i as [|i]; cbn [nth]; [difs; first [apply Q|apply Q'|assumption]|]); destruct i; apply dif_const.
Qed.
