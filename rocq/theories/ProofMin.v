(** Proof of C180: the potentials and their derivatives are continuous. *)
From Coquelicot Require Import Coquelicot.
From Verif Require Import Base ModelExpr ModelUtils ModelField SpecTensor SpecField SpecPoly ProofTensor ProofField ProofPixel ProofDeriv ProofSys ProofPseudo ProofEdgeG ProofEdgeP ProofEdge ProofEdgeSym ProofPoly ProofPoly2 ProofCover4 ProofDirichlet.
Import ListNotations.
Open Scope R_scope.
Notation length := List.length.

Lemma cont_mult f g p : cont f p -> cont g p -> cont (fun q => f q * g q) p.
Proof.
  intros F G.
  apply (cont_ext (fun q => / 2 * (f q + g q) ^ 2 + (- / 2) * (f q ^ 2 + 1 * g q ^ 2))); [intros q; field|].
  apply (cont_lin (fun q => / 2 * (f q + g q) ^ 2) (fun q => f q ^ 2 + 1 * g q ^ 2)).
  - apply (cont_comp (fun q => f q + g q) (fun x => / 2 * x ^ 2)); [apply cont_plus; assumption|]. apply (ex_derive_continuous (fun x => / 2 * x ^ 2)). auto_derive. exact Logic.I.
  - apply (cont_lin (fun q => f q ^ 2) (fun q => g q ^ 2)); apply cont_sq; assumption.
Qed.
Lemma cont_fun (g : R -> R) f p : cont f p -> ex_derive g (f p) -> cont (fun q => g (f q)) p.
Proof. intros F D. apply (cont_comp f g p F). apply (ex_derive_continuous g). exact D. Qed.
Lemma cont_opp f p : cont f p -> cont (fun q => - f q) p.
Proof. intros F. apply (cont_ext (fun q => -1 * f q)); [intros q; ring|]. apply cont_mult; [apply cont_const|exact F]. Qed.
Lemma cont_minus f g p : cont f p -> cont g p -> cont (fun q => f q - g q) p.
Proof. intros F G. apply (cont_plus f (fun q => - g q)); [exact F|apply cont_opp, G]. Qed.
Lemma cont_pow f n p : cont f p -> cont (fun q => f q ^ n) p.
Proof. intros F. apply (cont_fun (fun x => x ^ n) f p F). auto_derive. exact Logic.I. Qed.
Lemma cont_inv f p : cont f p -> f p <> 0 -> cont (fun q => / f q) p.
Proof. intros F N. apply (cont_fun Rinv f p F). auto_derive. exact N. Qed.
Lemma cont_div f g p : cont f p -> cont g p -> g p <> 0 -> cont (fun q => f q / g q) p.
Proof. intros F G N. apply (cont_mult f (fun q => / g q)); [exact F|apply cont_inv; assumption]. Qed.
Lemma cont_sqrt f p : cont f p -> 0 < f p -> cont (fun q => sqrt (f q)) p.
Proof. intros F N. apply (cont_fun sqrt f p F). auto_derive. exact N. Qed.
Lemma cont_atan f p : cont f p -> cont (fun q => atan (f q)) p.
Proof. intros F. apply (cont_fun atan f p F). eexists. apply is_derive_Reals. apply derivable_pt_lim_atan. Qed.
Lemma cont_abs f p : cont f p -> f p <> 0 -> cont (fun q => Rabs (f q)) p.
Proof. intros F N. apply (cont_fun Rabs f p F). eexists. apply is_derive_Rabs; [apply is_derive_id|exact N]. Qed.
Lemma cont_sum {A} (l : list A) (f : A -> p3 -> R) p : (forall a, In a l -> cont (f a) p) -> cont (fun q => sum_over l (fun a => f a q)) p.
Proof.
  unfold sum_over. induction l as [|x l IH]; intros H; cbn [map sumR]; [apply cont_const|].
  apply (cont_plus (f x) (fun q => sumR (map (fun a => f a q) l))); [apply H; left; reflexivity|apply IH; intros a I; apply H; right; exact I].
Qed.
Lemma cont_scal k f p : cont f p -> cont (fun q => k * f q) p.
Proof. intros F. apply (cont_mult (fun _ => k)); [apply cont_const|exact F]. Qed.
Lemma cont_shift (f : p3 -> R) h k p : cont f (image h k p) -> cont (fun q => f (image h k q)) p.
Proof.
  intros F eps E. destruct (F eps E) as (d & D0 & D). exists d. split; [exact D0|]. intros q (c1 & c2 & c3). apply D.
  unfold close, image. cbn [px py pz]. replace (pz q + 2 * IZR k * h - (pz p + 2 * IZR k * h)) with (pz q - pz p) by ring. auto.
Qed.

Ltac cons_ :=
  repeat first
    [ assumption
    | match goal with |- cont (fun _ => ?k) _ => apply cont_const end
    | match goal with
      | |- cont (fun q => @?f q + @?g q) _ => apply (cont_plus f g)
      | |- cont (fun q => @?f q - @?g q) _ => apply (cont_minus f g)
      | |- cont (fun q => @?f q * @?g q) _ => apply (cont_mult f g)
      | |- cont (fun q => @?f q / @?g q) _ => apply (cont_div f g)
      | |- cont (fun q => - @?f q) _ => apply (cont_opp f)
      | |- cont (fun q => @?f q ^ ?n) _ => apply (cont_pow f n)
      | |- cont (fun q => atan (@?f q)) _ => apply (cont_atan f)
      | |- cont (fun q => Rabs (@?f q)) _ => apply (cont_abs f)
      end ]; cbv beta.
Lemma cont_point X Y Z R1 n i p : (n <= 4)%nat -> cont X p -> cont Y p -> cont Z p -> cont R1 p -> R1 p <> 0 -> cont (fun q => nth i (point_expr n (X q) (Y q) (Z q) (R1 q) 1) 0) p.
Proof.
  intros N DX DY DZ DR NR. pose proof PI_RGT_0 as PP.
  assert (Q : forall m k : nat, forall c, c <> 0 -> c * R1 p ^ m <> 0) by (intros m k c c0; apply Rmult_integral_contrapositive_currified; [exact c0|apply pow_nonzero, NR]).
  destruct n as [|[|[|[|[|n]]]]]; [| | | | |lia]; cbn [point_expr]; unfold point_expr0, point_expr1, point_expr2, point_expr3, point_expr4; cbv zeta;
    repeat (destruct i as [|i]; cbn [nth]; [cons_; apply Q; try exact 0%nat; lra|]); destruct i; apply cont_const.
Qed.
Lemma cont_edge X1 X2 Y1 Y2 R1 R2 L Z n i p : (n <= 4)%nat -> cont X1 p -> cont X2 p -> cont Y1 p -> cont Y2 p -> cont R1 p -> cont R2 p -> cont Z p ->
  Z p <> 0 -> R1 p <> 0 -> R2 p <> 0 -> (R1 p + R2 p) ^ 2 - L <> 0 -> R1 p * R2 p + X1 p * X2 p + Y1 p * Y2 p + Rabs (Z p) * (Rabs (Z p) + R1 p + R2 p) <> 0 ->
  cont (fun q => nth i (edge_expr n (X1 q) (X2 q) (Y1 q) (Y2 q) (R1 q) (R2 q) L (Z q) 1) 0) p.
Proof.
  intros N D1 D2 D3 D4 D5 D6 D7 Nz N1 N2 N3 N4. pose proof PI_neq0 as PP.
  assert (Q : forall m, (R1 p * R2 p) ^ m <> 0) by (intros m; apply pow_nonzero, Rmult_integral_contrapositive_currified; assumption).
  assert (Q' : forall m, ((R1 p + R2 p) ^ 2 - L) ^ m <> 0) by (intros m; apply pow_nonzero; assumption).
  assert (Q0 : Rabs (Z p) * (R1 p * R2 p + X1 p * X2 p + Y1 p * Y2 p + Rabs (Z p) * (Rabs (Z p) + R1 p + R2 p)) <> 0) by (apply Rmult_integral_contrapositive_currified; [apply Rabs_no_R0, Nz|exact N4]).
  assert (Q1 : R1 p * R2 p * ((R1 p + R2 p) ^ 2 - L) <> 0) by (repeat apply Rmult_integral_contrapositive_currified; assumption).
  destruct n as [|[|[|[|[|n]]]]]; [| | | | |lia]; cbn [edge_expr]; unfold edge_expr0, edge_expr1, edge_expr2, edge_expr3, edge_expr4; cbv zeta;
    repeat (destruct i as [|i]; cbn [nth]; [cons_; first [apply Q|apply Q'|assumption]|]); destruct i; apply cont_const.
Qed.
Lemma cont_dist v p : 0 < dist p v -> cont (fun q => dist q v) p.
Proof.
  intros D. assert (S : 0 < (px p - fst v) ^ 2 + (py p - snd v) ^ 2 + pz p ^ 2) by (apply dist_pos_sq, D).
  unfold dist. apply (cont_sqrt (fun q => (px q - fst v) ^ 2 + (py q - snd v) ^ 2 + pz q ^ 2)); [|exact S].
  pose proof (cont_px p). pose proof (cont_py p). pose proof (cont_pz p). cons_.
Qed.
Lemma cont_pixel_term n v i p : (n <= 4)%nat -> 0 < dist p v -> cont (pixel_term n v i) p.
Proof.
  intros N D. pose proof (cont_px p). pose proof (cont_py p). unfold pixel_term.
  apply (cont_point (fun q => px q - fst v) (fun q => py q - snd v) pz (fun q => dist q v)); [exact N|cons_|cons_|apply cont_pz|apply cont_dist, D|lra].
Qed.
Lemma cont_edge_term n v1 v2 i p : (n <= 4)%nat -> pz p <> 0 -> cont (edge_term n v1 v2 i) p.
Proof.
  intros N Z. pose proof (cont_px p). pose proof (cont_py p). pose proof (dist_pos p v1 Z) as D1. pose proof (dist_pos p v2 Z) as D2.
  pose proof (L_pos v1 v2 p Z) as L. pose proof (den0_pos v1 v2 p Z) as D. unfold Lof, l2of in L. unfold den0 in D. unfold edge_term.
  apply (cont_edge (fun q => px q - fst v1) (fun q => px q - fst v2) (fun q => py q - snd v1) (fun q => py q - snd v2) (fun q => dist q v1) (fun q => dist q v2)
    ((fst v1 - fst v2) ^ 2 + (snd v1 - snd v2) ^ 2) pz);
    [exact N|cons_|cons_|cons_|cons_|apply cont_dist, D1|apply cont_dist, D2|apply cont_pz|exact Z|lra|lra|lra|lra].
Qed.
Lemma cont_unit g n i p : (n <= 4)%nat -> smooth g p -> cont (unit_term g n i) p.
Proof.
  intros N S. destruct g as [pixels m h|paths m h|points edges pots m h|h|u]; cbn [smooth off_electrode] in S; [| | | |tauto]; unfold unit_term.
  - apply (cont_sum pixels (fun va q => snd va * sum_over (images m) (fun k => pixel_term n (fst va) i (image h k q)))). intros [v a] I. cbn [fst snd]. apply cont_scal.
    apply (cont_sum (images m) (fun k q => pixel_term n v i (image h k q))). intros k K. apply (cont_shift (pixel_term n v i)). apply cont_pixel_term; [exact N|apply (S v a k I K)].
  - destruct S as [_ S]. apply (cont_sum paths (fun path q => sum_over (images m) (fun k => sum_over (edges_of path) (fun e => edge_term n (fst e) (snd e) i (image h k q))))). intros path _.
    apply (cont_sum (images m) (fun k q => sum_over (edges_of path) (fun e => edge_term n (fst e) (snd e) i (image h k q)))). intros k K.
    apply (cont_sum (edges_of path) (fun e q => edge_term n (fst e) (snd e) i (image h k q))). intros e _. apply (cont_shift (edge_term n (fst e) (snd e) i)). apply cont_edge_term; [exact N|apply S, K].
  - destruct S as (_ & _ & S). apply (cont_sum edges (fun e q => nth (snd e) pots 0 * sum_over (images m) (fun k => edge_term n (nth (fst (fst e)) points (0, 0)) (nth (snd (fst e)) points (0, 0)) i (image h k q)))). intros e _. apply cont_scal.
    apply (cont_sum (images m) (fun k q => edge_term n (nth (fst (fst e)) points (0, 0)) (nth (snd (fst e)) points (0, 0)) i (image h k q))). intros k K.
    apply (cont_shift (edge_term n _ _ i)). apply cont_edge_term; [exact N|apply S, K].
  - destruct n as [|[|n]]; [|destruct (Nat.eqb i 2); apply cont_const|apply cont_const]. destruct (Nat.eqb i 0); [|apply cont_const].
    apply (cont_ext (fun q => / h * pz q)); [intros q; unfold Rdiv; ring|]. apply cont_scal, cont_pz.
Qed.
Lemma cont_tensor s t n idx p : (n <= 4)%nat -> idx_of_order n idx -> (forall e, In e s -> smooth (egeom e) p) -> cont (tensor_entry s t n idx) p.
Proof.
  intros N I S. assert (W : wf s) by (intros e He; eapply smooth_wf; eauto).
  apply (cont_ext (fun q => expanded n (tab (2 * n + 1) (fun i => sys_term s t n i q)) idx)); [intros q; symmetry; apply tensor_entry_eq; [exact W|lia|exact I]|].
  assert (D : forall i, cont (sys_term s t n i) p).
  { intros i. unfold sys_term. apply (cont_sum s (fun e q => volt_of t e * unit_term (egeom e) n i q)). intros e He. apply cont_scal, cont_unit; auto. }
  unfold expanded. destruct (entry_single n idx ltac:(lia) I) as [_ Hlt].
  apply (cont_ext (fun q => red_val (fun i => sys_term s t n i q) (entry n idx))); [intros q; symmetry; apply ent_val_tab, Hlt|].
  destruct (entry n idx) as [i|a b]; cbn [red_val]; [apply D|]. apply (cont_minus (fun q => - sys_term s t n a q) (sys_term s t n b)); [apply (cont_opp (sys_term s t n a)), D|apply D].
Qed.
Lemma cont_pseudo c s n idx p : (n <= 3)%nat -> idx_of_order n idx -> (forall e, In e s -> smooth (egeom e) p) -> cont (pseudo_entry c s n idx) p.
Proof.
  intros N [IL IA] S. assert (W : wf s) by (intros e He; eapply smooth_wf; eauto).
  assert (D : forall m j, (m <= 3)%nat -> idx_of_order (Datatypes.S m) j -> cont (fun q => rf_tensors c s q m j) p).
  { intros m j Hm Hj. unfold rf_tensors. apply cont_scal, cont_tensor; [lia|exact Hj|exact S]. }
  assert (SQ : forall f : p3 -> R, (forall q, pseudo_entry c s n idx q = f q) -> cont f p -> cont (pseudo_entry c s n idx) p) by (intros f E; apply cont_ext; intros q; symmetry; apply E).
  assert (E : forall q, exists T', pseudo_tensor n (rf_tensors c s q) = Some T' /\ pseudo_entry c s n idx q = T' idx) by (intros q; apply pseudo_entry_eq; [exact W|lia]).
  unfold axes_ok in IA.
  destruct n as [|[|[|[|n]]]]; [| | | |lia]; destruct idx as [|i0 [|i1 [|i2 [|i3 idx]]]]; cbn in IL; try lia; cbn [pseudo_tensor] in E;
    repeat match goal with H : Forall _ (_ :: _) |- _ => inversion_clear H end;
    (eapply SQ; [intros q; destruct (E q) as (T' & EE & ->); injection EE as <-; reflexivity|]); unfold sum3; cbv beta zeta;
    repeat match goal with
    | |- cont (fun q => @?f q + @?g q) _ => apply (cont_plus f g)
    | |- cont (fun q => @?f q * @?g q) _ => apply (cont_mult f g)
    | |- cont (fun q => rf_tensors _ _ q _ _) _ => apply D; [lia|split; [reflexivity|repeat (apply Forall_cons; [lia|]); apply Forall_nil]]
    | |- cont (fun _ => ?k) _ => apply cont_const
    end.
Qed.

