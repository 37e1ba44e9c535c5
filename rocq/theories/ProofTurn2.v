(** Proof of C179: turned electrodes. *)
From Coquelicot Require Import Coquelicot.
From Verif Require Import Base ModelExpr ModelUtils ModelField SpecTensor SpecField SpecPoly SpecTurn ProofTensor ProofField ProofPixel ProofDeriv ProofSys ProofPseudo ProofEdgeG ProofEdgeP ProofEdge ProofEdgeSym ProofPoly ProofPoly2 ProofTurn.
Import ListNotations.
Open Scope R_scope.
Notation length := List.length.

(** ** derivatives along any direction *)
Lemma dif_image (f : p3 -> R) h k p : dif f (image h k p) -> dif (fun q => f (image h k q)) p.
Proof.
  intros (A & B & C & F). exists A, B, C. intros a b c. apply (is_derive_ext (fun t => f (along a b c t (image h k p)))); [|apply F].
  intros t. f_equal. unfold along, image. cbn [px py pz]. f_equal. ring.
Qed.
Lemma dif_dist v p : 0 < dist p v -> dif (fun q => dist q v) p.
Proof.
  intros D. assert (S : 0 < (px p - fst v) ^ 2 + (py p - snd v) ^ 2 + pz p ^ 2) by (apply dist_pos_sq, D).
  unfold dist. apply (dif_sqrt (fun q => (px q - fst v) ^ 2 + (py q - snd v) ^ 2 + pz q ^ 2)); [|exact S].
  pose proof (dif_px p). pose proof (dif_py p). pose proof (dif_pz p). difs.
Qed.
Lemma dif_pixel_term n v i p : (n <= 4)%nat -> 0 < dist p v -> dif (pixel_term n v i) p.
Proof.
  intros N D. pose proof (dif_px p). pose proof (dif_py p). unfold pixel_term.
  apply (dif_point (fun q => px q - fst v) (fun q => py q - snd v) pz (fun q => dist q v)); [exact N|difs|difs|apply dif_pz|apply dif_dist, D|lra].
Qed.
Lemma dif_edge_term n v1 v2 i p : (n <= 4)%nat -> pz p <> 0 -> dif (edge_term n v1 v2 i) p.
Proof.
  intros N Z. pose proof (dif_px p). pose proof (dif_py p). pose proof (dist_pos p v1 Z) as D1. pose proof (dist_pos p v2 Z) as D2.
  pose proof (L_pos v1 v2 p Z) as L. pose proof (den0_pos v1 v2 p Z) as D. unfold Lof, l2of in L. unfold den0 in D. unfold edge_term.
  apply (dif_edge (fun q => px q - fst v1) (fun q => px q - fst v2) (fun q => py q - snd v1) (fun q => py q - snd v2) (fun q => dist q v1) (fun q => dist q v2)
    ((fst v1 - fst v2) ^ 2 + (snd v1 - snd v2) ^ 2) pz);
    [exact N|difs|difs|difs|difs|apply dif_dist, D1|apply dif_dist, D2|apply dif_pz|exact Z|lra|lra|lra|lra].
Qed.
Lemma dif_unit g n i p : (n <= 4)%nat -> smooth g p -> dif (unit_term g n i) p.
Proof.
  intros N S. destruct g as [pixels m h|paths m h|points edges pots m h|h|u]; cbn [smooth off_electrode] in S; [| | | |tauto]; unfold unit_term.
  - apply (dif_sum pixels (fun va q => snd va * sum_over (images m) (fun k => pixel_term n (fst va) i (image h k q)))). intros [v a] I. cbn [fst snd]. apply dif_scal.
    apply (dif_sum (images m) (fun k q => pixel_term n v i (image h k q))). intros k K. apply (dif_image (pixel_term n v i)). apply dif_pixel_term; [exact N|apply (S v a k I K)].
  - destruct S as [_ S]. apply (dif_sum paths (fun path q => sum_over (images m) (fun k => sum_over (edges_of path) (fun e => edge_term n (fst e) (snd e) i (image h k q))))). intros path _.
    apply (dif_sum (images m) (fun k q => sum_over (edges_of path) (fun e => edge_term n (fst e) (snd e) i (image h k q)))). intros k K.
    apply (dif_sum (edges_of path) (fun e q => edge_term n (fst e) (snd e) i (image h k q))). intros e _. apply (dif_image (edge_term n (fst e) (snd e) i)). apply dif_edge_term; [exact N|apply S, K].
  - destruct S as (_ & _ & S). apply (dif_sum edges (fun e q => nth (snd e) pots 0 * sum_over (images m) (fun k => edge_term n (nth (fst (fst e)) points (0, 0)) (nth (snd (fst e)) points (0, 0)) i (image h k q)))). intros e _. apply dif_scal.
    apply (dif_sum (images m) (fun k q => edge_term n (nth (fst (fst e)) points (0, 0)) (nth (snd (fst e)) points (0, 0)) i (image h k q))). intros k K.
    apply (dif_image (edge_term n _ _ i)). apply dif_edge_term; [exact N|apply S, K].
  - destruct n as [|[|n]]; [|destruct (Nat.eqb i 2); apply dif_const|apply dif_const]. destruct (Nat.eqb i 0); [|apply dif_const].
    apply (dif_ext (fun q => / h * pz q)); [intros q; unfold Rdiv; ring|]. apply dif_scal, dif_pz.
Qed.
Lemma dif_tensor s t n idx p : (n <= 4)%nat -> idx_of_order n idx -> (forall e, In e s -> smooth (egeom e) p) -> dif (tensor_entry s t n idx) p.
Proof.
  intros N I S. assert (W : wf s) by (intros e He; eapply smooth_wf; eauto).
  apply (dif_ext (fun q => expanded n (tab (2 * n + 1) (fun i => sys_term s t n i q)) idx)); [intros q; symmetry; apply tensor_entry_eq; [exact W|lia|exact I]|].
  assert (D : forall i, dif (sys_term s t n i) p).
  { intros i. unfold sys_term. apply (dif_sum s (fun e q => volt_of t e * unit_term (egeom e) n i q)). intros e He. apply dif_scal, dif_unit; auto. }
  unfold expanded. destruct (entry_single n idx ltac:(lia) I) as [_ Hlt].
  apply (dif_ext (fun q => red_val (fun i => sys_term s t n i q) (entry n idx))); [intros q; symmetry; apply ent_val_tab, Hlt|].
  destruct (entry n idx) as [i|a b]; cbn [red_val]; [apply D|]. apply (dif_minus (fun q => - sys_term s t n a q) (sys_term s t n b)); [apply (dif_opp (sys_term s t n a)), D|apply D].
Qed.
Lemma tensor_along s t n idx p a b c : (n <= 4)%nat -> idx_of_order n idx -> (forall e, In e s -> smooth (egeom e) p) ->
  is_derive (fun r => tensor_entry s t n idx (along a b c r p)) 0
    (a * tensor_entry s t (S n) (0%nat :: idx) p + b * tensor_entry s t (S n) (1%nat :: idx) p + c * tensor_entry s t (S n) (2%nat :: idx) p).
Proof.
  intros N I S. apply dif_partial; [apply dif_tensor; assumption| | |]; apply (smooth_derivatives s t n p idx); auto.
Qed.
Lemma dif_pseudo c s n idx p : (n <= 3)%nat -> idx_of_order n idx -> (forall e, In e s -> smooth (egeom e) p) -> dif (pseudo_entry c s n idx) p.
Proof.
  intros N [IL IA] S. assert (W : wf s) by (intros e He; eapply smooth_wf; eauto).
  assert (D : forall m j, (m <= 3)%nat -> idx_of_order (Datatypes.S m) j -> dif (fun q => rf_tensors c s q m j) p).
  { intros m j Hm Hj. unfold rf_tensors. apply dif_scal, dif_tensor; [lia|exact Hj|exact S]. }
  assert (SQ : forall f : p3 -> R, (forall q, pseudo_entry c s n idx q = f q) -> dif f p -> dif (pseudo_entry c s n idx) p) by (intros f E; apply dif_ext; intros q; symmetry; apply E).
  assert (E : forall q, exists T', pseudo_tensor n (rf_tensors c s q) = Some T' /\ pseudo_entry c s n idx q = T' idx) by (intros q; apply pseudo_entry_eq; [exact W|lia]).
  unfold axes_ok in IA.
  destruct n as [|[|[|[|n]]]]; [| | | |lia]; destruct idx as [|i0 [|i1 [|i2 [|i3 idx]]]]; cbn in IL; try lia; cbn [pseudo_tensor] in E;
    repeat match goal with H : Forall _ (_ :: _) |- _ => inversion_clear H end;
    (eapply SQ; [intros q; destruct (E q) as (T' & EE & ->); injection EE as <-; reflexivity|]); unfold sum3; cbv beta zeta;
    repeat match goal with
    | |- dif (fun q => @?f q + @?g q) _ => apply (dif_plus f g)
    | |- dif (fun q => @?f q * @?g q) _ => apply (dif_mult f g)
    | |- dif (fun q => rf_tensors _ _ q _ _) _ => apply D; [lia|split; [reflexivity|repeat (apply Forall_cons; [lia|]); apply Forall_nil]]
    | |- dif (fun _ => ?k) _ => apply dif_const
    end.
Qed.

(** ** what stays near *)
Lemma off_along g a b c p : off_electrode g p -> locally 0 (fun t => off_electrode g (along a b c t p)).
Proof.
  assert (Z : forall n h, (forall k, In k (images n) -> pz (image h k p) <> 0) -> locally 0 (fun t => forall k, In k (images n) -> pz (image h k (along a b c t p)) <> 0)).
  { intros n h H. apply (locally_forall_in (images n) (fun j t => pz (image h j (along a b c t p)) <> 0)). intros j Hj. specialize (H j Hj).
    eapply (filter_imp (fun t => 0 < pz (image h j (along a b c t p)) ^ 2)); [intros t Ht E; rewrite E in Ht; lra|].
    apply locally_pos; [unfold along, image; cbn [px py pz]; auto_derive; auto|]. rewrite along0. apply pow2_gt_0. exact H. }
  destruct g as [pixels n h|paths n h|pts edges pots n h|h|u]; cbn [off_electrode]; intros H; [|apply Z, H|apply Z, H|now apply filter_forall|now apply filter_forall].
  assert (L : locally 0 (fun t => forall vk, In vk (list_prod pixels (images n)) -> 0 < dist (image h (snd vk) (along a b c t p)) (fst (fst vk)))).
  { apply locally_forall_in. intros [[v x] j] Hin. apply in_prod_iff in Hin. destruct Hin as [H1 H2]. cbn [fst snd]. specialize (H v x j H1 H2). apply dist_pos_sq in H.
    eapply filter_imp; [intros t Ht; apply dist_off_pos; exact Ht|]. apply locally_pos; [|cbn beta; rewrite along0; exact H]. unfold along, image; cbn [px py pz]; auto_derive; auto. }
  eapply filter_imp; [|exact L]. intros t Ht v x j H1 H2. apply (Ht ((v, x), j)). apply in_prod_iff. auto.
Qed.
Lemma smooth_along g a b c p : smooth g p -> locally 0 (fun t => smooth g (along a b c t p)).
Proof.
  intros H. destruct g as [pixels m h|paths m h|points edges pots m h|h|u]; cbn [smooth] in *; [| | | |tauto].
  - now apply off_along.
  - destruct H as [W Ho]. apply filter_and; [now apply filter_forall|]. now apply off_along.
  - destruct H as (W & HC & Ho). apply filter_and; [now apply filter_forall|]. apply filter_and; [now apply filter_forall|]. now apply off_along.
  - now apply filter_forall.
Qed.
(** ** tensors that turn with the point *)
Lemma rot_derive r idx : forall (T : R -> tens) (D : tens), (forall j, idx_of_order (length idx) j -> is_derive (fun t => T t j) 0 (D j)) ->
  is_derive (fun t => rot r (T t) idx) 0 (rot r D idx).
Proof.
  induction idx as [|a idx IH]; intros T D H; [apply (H []); split; [reflexivity|constructor]|]. cbn [rot].
  assert (X : forall b, (b < 3)%nat -> is_derive (fun t => r b a * rot r (fun l => T t (b :: l)) idx) 0 (r b a * rot r (fun l => D (b :: l)) idx)).
  { intros b Hb. apply (is_derive_scal (fun t => rot r (fun l => T t (b :: l)) idx)). apply (IH (fun t l => T t (b :: l)) (fun l => D (b :: l))). intros j [J1 J2]. apply H. split; [cbn [length]; lia|now constructor]. }
  exact (is_derive_plus _ _ 0 _ _ (is_derive_plus _ _ 0 _ _ (X 0%nat ltac:(lia)) (X 1%nat ltac:(lia))) (X 2%nat ltac:(lia))).
Qed.
Lemma rot_lin r idx : forall a b c (A B C : tens), rot r (fun j => a * A j + b * B j + c * C j) idx = a * rot r A idx + b * rot r B idx + c * rot r C idx.
Proof.
  induction idx as [|k idx IH]; intros a b c A B C; [reflexivity|]. cbn [rot].
  rewrite (IH a b c (fun l => A (0%nat :: l)) (fun l => B (0%nat :: l))), (IH a b c (fun l => A (1%nat :: l)) (fun l => B (1%nat :: l))), (IH a b c (fun l => A (2%nat :: l)) (fun l => B (2%nat :: l))). ring.
Qed.
Lemma turn_along c s flip k t p : c ^ 2 + s ^ 2 = 1 -> (k < 3)%nat ->
  turn3 c s flip (along (turn_matrix c s flip k 0) (turn_matrix c s flip k 1) (turn_matrix c s flip k 2) t p) = move k t (turn3 c s flip p).
Proof.
  intros N K. assert (C2 : c ^ 2 = 1 - s ^ 2) by lra.
  destruct k as [|[|[|k]]]; [| | |lia]; destruct flip; unfold turn3, turn2, along, move, turn_matrix; cbn [px py pz fst snd]; f_equal; ring [C2].
Qed.
Section Covariance.
  Context (c s : R) (flip : bool) (U : c ^ 2 + s ^ 2 = 1).
  Context (F F' : nat -> list nat -> p3 -> R) (good : p3 -> Prop) (N : nat).
  Context (open : forall p a b d, good p -> locally 0 (fun t => good (along a b d t p))).
  Context (base : forall p, good p -> F' 0%nat [] (turn3 c s flip p) = F 0%nat [] p).
  Context (step : forall n idx p a b d, (n < N)%nat -> idx_of_order n idx -> good p ->
    is_derive (fun t => F n idx (along a b d t p)) 0 (a * F (S n) (0%nat :: idx) p + b * F (S n) (1%nat :: idx) p + d * F (S n) (2%nat :: idx) p)).
  Context (step' : forall n idx p k, (n < N)%nat -> idx_of_order n idx -> (k < 3)%nat -> good p -> partial (F' n idx) k (turn3 c s flip p) (F' (S n) (k :: idx) (turn3 c s flip p))).
  Lemma covariance n : (n <= N)%nat -> forall idx p, idx_of_order n idx -> good p ->
    F' n idx (turn3 c s flip p) = rot (transpose (turn_matrix c s flip)) (fun j => F n j p) idx.
  Proof using open base step step' U.
    induction n as [|n IH]; intros Hn idx p [IL IA] G.
    - destruct idx; [|discriminate]. cbn [rot]. apply base, G.
    - destruct idx as [|k idx]; [discriminate|]. inversion IA as [|? ? K IA']; subst. assert (I : idx_of_order n idx) by (split; [cbn in IL; lia|exact IA']).
      set (w := turn_matrix c s flip k). pose proof (step' n idx p k ltac:(lia) I K G) as D'. apply is_derive_unique in D'.
      rewrite <- D'. apply is_derive_unique. clear D'.
      apply (is_derive_ext_loc (fun t => rot (transpose (turn_matrix c s flip)) (fun j => F n j (along (w 0%nat) (w 1%nat) (w 2%nat) t p)) idx)).
      { eapply filter_imp; [|apply (open p (w 0%nat) (w 1%nat) (w 2%nat) G)]. intros t Gt. cbv beta in Gt. rewrite <- (IH ltac:(lia) idx _ I Gt). unfold w. rewrite turn_along by assumption. reflexivity. }
      cbn [rot]. change (transpose (turn_matrix c s flip) 0%nat k) with (w 0%nat). change (transpose (turn_matrix c s flip) 1%nat k) with (w 1%nat). change (transpose (turn_matrix c s flip) 2%nat k) with (w 2%nat).
      rewrite <- rot_lin. destruct I as [<- IA'']. apply (rot_derive _ idx (fun t j => F (length idx) j (along (w 0%nat) (w 1%nat) (w 2%nat) t p))). intros j J. apply step; [lia|exact J|exact G].
  Qed.
End Covariance.
(** ** the turned electrodes *)
Section Turned.
  Context (c s : R) (flip : bool) (U : c ^ 2 + s ^ 2 = 1).
  Lemma dist_turn p v : dist (turn3 c s flip p) (turn2 c s flip v) = dist p v.
  Proof using U.
    unfold dist. f_equal. assert (C2 : c ^ 2 = 1 - s ^ 2) by lra. unfold turn3, turn2, turn_matrix. cbn [px py pz fst snd]. destruct flip; ring [C2].
  Qed.
  Lemma image_turn h k p : image h k (turn3 c s flip p) = turn3 c s flip (image h k p).
  Proof. reflexivity. Qed.
  Lemma pixel_turn v p : pixel_term 0 (turn2 c s flip v) 0 (turn3 c s flip p) = pixel_term 0 v 0 p.
  Proof using U. unfold pixel_term. cbn [point_expr point_expr0 nth]. rewrite dist_turn. reflexivity. Qed.
  Lemma edge_turn v1 v2 p : edge_term 0 (turn2 c s flip v1) (turn2 c s flip v2) 0 (turn3 c s flip p) = (if flip then -1 else 1) * edge_term 0 v1 v2 0 p.
  Proof using U.
    rewrite !e0_eq. unfold den0. rewrite !dist_turn. assert (C2 : c ^ 2 = 1 - s ^ 2) by lra.
    set (x1 := px p - fst v1). set (x2 := px p - fst v2). set (y1 := py p - snd v1). set (y2 := py p - snd v2). cbn [turn3 pz].
    match goal with |- atan (?z * ?a / (?zs * (?r + ?b + ?d + ?e))) * ?k = _ =>
      replace a with ((if flip then -1 else 1) * (x1 * y2 - y1 * x2)) by (unfold x1, x2, y1, y2, turn3, turn2, turn_matrix; cbn [px py pz fst snd]; destruct flip; ring [C2]);
      replace (r + b + d + e) with (r + x1 * x2 + y1 * y2 + e) by (unfold x1, x2, y1, y2, turn3, turn2, turn_matrix; cbn [px py pz fst snd]; destruct flip; ring [C2]) end.
    destruct flip; [|rewrite !Rmult_1_l; reflexivity].
    match goal with |- atan (?z * (-1 * ?a) / ?d) * ?k = -1 * (atan (?z * ?a / ?d) * ?k) => replace (z * (-1 * a) / d) with (- (z * a / d)) by (unfold Rdiv; ring); rewrite atan_opp; ring end.
  Qed.
  Lemma path_turn path h k p : path <> [] ->
    sum_over (edges_of (let q := map (turn2 c s flip) path in if flip then rev q else q)) (fun e => edge_term 0 (fst e) (snd e) 0 (image h k (turn3 c s flip p))) =
    sum_over (edges_of path) (fun e => edge_term 0 (fst e) (snd e) 0 (image h k p)).
  Proof using U.
    intros N. rewrite image_turn. set (q := image h k p).
    assert (A : path_sum (fun a b => edge_term 0 a b 0 (turn3 c s flip q)) (map (turn2 c s flip) path) = (if flip then -1 else 1) * path_sum (fun a b => edge_term 0 a b 0 q) path).
    { unfold path_sum. rewrite edges_map by exact N. unfold sum_over. rewrite map_map. cbn [fst snd]. rewrite (map_ext _ (fun e => (if flip then -1 else 1) * edge_term 0 (fst e) (snd e) 0 q)) by (intros e; apply edge_turn).
      induction (edges_of path) as [|e es IH]; cbn [map sumR]; [ring|]. rewrite IH. ring. }
    cbv zeta. fold (path_sum (fun a b => edge_term 0 a b 0 q) path).
    destruct flip; [|fold (path_sum (fun a b => edge_term 0 a b 0 (turn3 c s false q)) (map (turn2 c s false) path)); rewrite A; ring].
    fold (path_sum (fun a b => edge_term 0 a b 0 (turn3 c s true q)) (rev (map (turn2 c s true) path))). rewrite path_sum_rev by (intros a b; apply edge_swap). rewrite A. ring.
  Qed.
  Lemma nth_turn points i : (i < length points)%nat -> nth i (map (turn2 c s flip) points) (0, 0) = turn2 c s flip (nth i points (0, 0)).
  Proof. intros H. rewrite (nth_indep _ (0, 0) (turn2 c s flip (0, 0))) by (rewrite map_length; exact H). apply map_nth. Qed.
End Turned.
Section Turned2.
  Context (c s : R) (flip : bool) (U : c ^ 2 + s ^ 2 = 1).
  Lemma unit_turn g p : smooth g p -> unit_term (turn_geom c s flip g) 0 0 (turn3 c s flip p) = unit_term g 0 0 p.
  Proof using U.
    intros S. destruct g as [pixels m h|paths m h|points edges pots m h|h|u]; cbn [turn_geom unit_term]; [| | |reflexivity|destruct S].
    - unfold sum_over at 1 3. rewrite map_map. f_equal. apply map_ext. intros [v a]. cbn [fst snd]. f_equal. unfold sum_over. f_equal. apply map_ext. intros k. rewrite image_turn. apply pixel_turn, U.
    - destruct S as [W _]. cbn [well_formed] in W. unfold sum_over at 1 4. rewrite map_map. f_equal. apply map_ext_in. intros path Hp. unfold sum_over at 1 3. f_equal. apply map_ext. intros k. apply path_turn; [exact U|]. intros ->. contradiction.
    - destruct S as (W & _). cbn [well_formed] in W. unfold sum_over at 1 3. rewrite map_map. f_equal. apply map_ext_in. intros [[i j] w] He. specialize (W _ He). cbn [fst snd] in *. destruct W as (W1 & W2 & _).
      destruct flip; cbn [fst snd]; f_equal; unfold sum_over; f_equal; apply map_ext; intros k; rewrite image_turn.
      + rewrite !nth_turn by assumption. rewrite edge_swap, edge_turn by exact U. ring.
      + rewrite !nth_turn by assumption. rewrite edge_turn by exact U. ring.
  Qed.
  Lemma smooth_turn g p : smooth g p -> smooth (turn_geom c s flip g) (turn3 c s flip p).
  Proof using U.
    destruct g as [pixels m h|paths m h|points edges pots m h|h|u]; cbn [smooth turn_geom off_electrode well_formed]; [| | |tauto|tauto].
    - intros H v a k I K. apply in_map_iff in I. destruct I as ((v' & a') & [= <- <-] & I). rewrite image_turn, dist_turn by exact U. apply (H v' a'); assumption.
    - intros [W H]. split; [|exact H]. intros I. apply in_map_iff in I. destruct I as (path & E & I). cbv zeta in E. assert (P : path = []); [|subst path; contradiction].
      apply length_zero_iff_nil. destruct flip; [apply (f_equal (@length p2)) in E; rewrite rev_length, map_length in E; exact E|apply (f_equal (@length p2)) in E; rewrite map_length in E; exact E].
    - intros (W & CM & H). split; [|split; [|exact H]].
      + intros e I. apply in_map_iff in I. destruct I as (e' & <- & I). specialize (W e' I). rewrite map_length. destruct flip; cbn [fst snd]; tauto.
      + intros v. specialize (CM v). unfold sum_over in *. rewrite map_map. destruct flip; [|exact CM].
        match type of CM with ?x = _ => transitivity (- x); [|rewrite CM; ring] end. cbn [fst snd]. clear. induction edges as [|e es IH]; cbn [map sumR]; [ring|]. rewrite IH. ring.
  Qed.
  Lemma system_turn_smooth sys p : (forall e, In e sys -> smooth (egeom e) p) -> forall e, In e (turn_system c s flip sys) -> smooth (egeom e) (turn3 c s flip p).
  Proof using U. intros H e I. apply in_map_iff in I. destruct I as (e' & <- & I). cbn [egeom]. apply smooth_turn, H, I. Qed.
  Lemma system_turn sys t d idx p : (d <= 5)%nat -> idx_of_order d idx -> (forall e, In e sys -> smooth (egeom e) p) ->
    tensor_entry (turn_system c s flip sys) t d idx (turn3 c s flip p) = rot (transpose (turn_matrix c s flip)) (fun j => tensor_entry sys t d j p) idx.
  Proof using U.
    intros D I S. apply (covariance c s flip U (tensor_entry sys t) (tensor_entry (turn_system c s flip sys) t) (fun q => forall e, In e sys -> smooth (egeom e) q) 5); try assumption.
    - intros q a b e G. apply locally_forall_in. intros x X. apply smooth_along, G, X.
    - intros q G. rewrite !tensor_entry_eq; [|intros e He; eapply smooth_wf, G, He|lia|split; [reflexivity|constructor]|intros e He; eapply smooth_wf, (system_turn_smooth sys q G), He|lia|split; [reflexivity|constructor]].
      assert (E : sys_term (turn_system c s flip sys) t 0%nat 0%nat (turn3 c s flip q) = sys_term sys t 0%nat 0%nat q); [|change (sys_term (turn_system c s flip sys) t 0%nat 0%nat (turn3 c s flip q) = sys_term sys t 0%nat 0%nat q); exact E].
      unfold sys_term, turn_system, sum_over. rewrite map_map. f_equal. apply map_ext_in. intros e He. cbn [egeom]. rewrite unit_turn by (apply G, He). destruct t; reflexivity.
    - intros n j q a b e Hn J G. apply tensor_along; [lia|exact J|exact G].
    - intros n j q k Hn J K G. apply (smooth_derivatives (turn_system c s flip sys) t n (turn3 c s flip q) j k); [apply system_turn_smooth, G|lia|exact K|exact J].
  Qed.
  Lemma pseudo_turn cc sys d idx p : (d <= 4)%nat -> idx_of_order d idx -> (forall e, In e sys -> smooth (egeom e) p) ->
    pseudo_entry cc (turn_system c s flip sys) d idx (turn3 c s flip p) = rot (transpose (turn_matrix c s flip)) (fun j => pseudo_entry cc sys d j p) idx.
  Proof using U.
    intros D I S. apply (covariance c s flip U (pseudo_entry cc sys) (pseudo_entry cc (turn_system c s flip sys)) (fun q => forall e, In e sys -> smooth (egeom e) q) 4); try assumption.
    - intros q a b e G. apply locally_forall_in. intros x X. apply smooth_along, G, X.
    - intros q G. rewrite !pseudo0; [|intros e He; eapply smooth_wf, G, He|intros e He; eapply smooth_wf, (system_turn_smooth sys q G), He].
      assert (C2 : c ^ 2 = 1 - s ^ 2) by lra.
      rewrite (system_turn sys TRf 1 [0%nat] q), (system_turn sys TRf 1 [1%nat] q), (system_turn sys TRf 1 [2%nat] q); try exact G; try lia; try (split; [reflexivity|repeat constructor]).
      unfold rot, transpose, turn_matrix. destruct flip; ring [C2].
    - intros n j q a b e Hn J G. apply dif_partial; [apply dif_pseudo; [lia|exact J|exact G]| | |]; apply (smooth_pseudo cc sys n q j); auto; lia.
    - intros n j q k Hn J K G. apply (smooth_pseudo cc (turn_system c s flip sys) n (turn3 c s flip q) j k); [apply system_turn_smooth, G|lia|exact K|exact J].
  Qed.
End Turned2.
