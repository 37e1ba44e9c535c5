(** Proof of C180: potentials without charges have no strict extrema. *)
From Coquelicot Require Import Coquelicot.
From Verif Require Import Base ModelExpr ModelUtils ModelField ModelSearch SpecTensor SpecField SpecPoly SpecSearch SpecTurn SpecEarnshaw SpecMinimum
  ProofTensor ProofField ProofPixel ProofDeriv ProofSys ProofPseudo ProofPoly ProofPoly2 ProofEarnshaw ProofCover4 ProofDirichlet ProofTurn ProofTurn2 ProofMin ProofMin2 ProofMin3.
Import ListNotations.
Open Scope R_scope.
Notation length := List.length.

(** a bounded upper semicontinuous function takes its largest value on a box *)
Lemma box_attains (v : p3 -> R) r h K : 0 <= r -> 0 <= h ->
  (forall p eps, in_box r h p -> 0 < eps -> exists d, 0 < d /\ forall q, in_box r h q -> close d q p -> v q <= v p + eps) ->
  (forall p, in_box r h p -> v p <= K) -> exists p, in_box r h p /\ forall q, in_box r h q -> v q <= v p.
Proof.
  intros R0 H0 US UB. destruct (Classical_Prop.classic (exists p, in_box r h p /\ forall q, in_box r h q -> v q <= v p)) as [Y|N]; [exact Y|exfalso].
  assert (MX : forall p, in_box r h p -> exists q, in_box r h q /\ v p < v q).
  { intros p P. destruct (Classical_Prop.classic (exists q, in_box r h q /\ v p < v q)) as [Y|M]; [exact Y|exfalso]. apply N. exists p. split; [exact P|].
    intros q Q. destruct (Rle_or_lt (v q) (v p)) as [|L]; [assumption|exfalso]. apply M. exists q. auto. }
  set (o := P3 0 0 0). assert (O : in_box r h o) by (unfold in_box, o; cbn [px py pz]; lra).
  assert (v o <= v o - 1); [|lra]. apply (box_max v r h (v o - 1) K US UB); [|exact O]. intros p P. right. apply MX, P.
Qed.
(** the sum of the second derivatives along the axes is not negative *)
Definition subharmonic (f : p3 -> R) (p : p3) : Prop :=
  exists lx ly lz, second_partial f 0 p lx /\ second_partial f 1 p ly /\ second_partial f 2 p lz /\ 0 <= lx + ly + lz.
Definition shift (m p : p3) : p3 := P3 (px p + px m) (py p + py m) (pz p + pz m).
Lemma shift_move m k t q : (k < 3)%nat -> move k t (shift m q) = shift m (move k t q).
Proof. intros K. destruct k as [|[|[|]]]; [..|lia]; unfold move, shift; cbn [px py pz]; f_equal; ring. Qed.
Lemma shift_partial f m k q l : (k < 3)%nat -> second_partial f k (shift m q) l -> second_partial (fun r => f (shift m r)) k q l.
Proof.
  intros K (g & A & B). exists g. split; [|exact B]. eapply filter_imp; [|exact A]. intros t D. cbv beta in D.
  apply (is_derive_ext (fun u => f (move k u (shift m q)))); [|exact D]. intros u. rewrite shift_move by exact K. reflexivity.
Qed.
Lemma shift_close d m q p : close d q p -> close d (shift m q) (shift m p).
Proof.
  unfold close, shift. cbn [px py pz]. replace (px q + px m - (px p + px m)) with (px q - px p) by ring. replace (py q + py m - (py p + py m)) with (py q - py p) by ring.
  replace (pz q + pz m - (pz p + pz m)) with (pz q - pz p) by ring. auto.
Qed.
Lemma shift_cont f m p : cont f (shift m p) -> cont (fun q => f (shift m q)) p.
Proof. intros F eps E. destruct (F eps E) as (d & D0 & D). exists d. split; [exact D0|]. intros q Q. apply D, shift_close, Q. Qed.
Lemma close_self d p : 0 < d -> close d p p.
Proof. intros D. assert (Z : forall x, Rabs (x - x) < d) by (intros x; replace (x - x) with 0 by ring; rewrite Rabs_R0; exact D). unfold close. auto. Qed.
Lemma move0 j p : move j 0 p = p.
Proof. destruct p as [x y z]. destruct j as [|[|]]; cbn; f_equal; ring. Qed.
(** no maximum of f + eps |q - o|^2 *)
Lemma no_top f p (o : p3) e d : subharmonic f p -> 0 < e -> 0 < d -> ~ (forall q, close d q p -> f q + e * distance2 q o <= f p + e * distance2 p o).
Proof.
  intros (lx & ly & lz & X & Y & Z & S) E D M.
  assert (A : forall j l, (j < 3)%nat -> second_partial f j p l -> l + 2 * e <= 0).
  { intros j l Hj (g & D1 & D2).
    set (w := fun t => - (f (move j t p) + e * distance2 (move j t p) o)). set (c := at_axis j p - at_axis j o).
    assert (DD : forall t, distance2 (move j t p) o = distance2 p o + 2 * c * t + t ^ 2).
    { intros t. unfold c, at_axis, distance2. destruct j as [|[|[|]]]; [..|lia]; cbn [move px py pz]; ring. }
    assert (Q : 2 * 0 <= - (l + 2 * e)).
    { apply (second_test w (fun t => - (g t + e * (2 * c + 2 * t)))).
      - eapply filter_imp; [|exact D1]. intros t Ht. cbv beta in Ht. unfold w.
        apply (is_derive_ext (fun u => opp (plus (f (move j u p)) (e * (distance2 p o + 2 * c * u + u ^ 2))))).
        { intros u. unfold opp, plus. cbn -[Rplus Rmult Ropp distance2 pow]. rewrite DD. reflexivity. }
        apply (is_derive_opp (fun u => plus (f (move j u p)) (e * (distance2 p o + 2 * c * u + u ^ 2)))). apply (is_derive_plus (fun u => f (move j u p))); [exact Ht|]. auto_derive; [exact Logic.I|ring].
      - apply (is_derive_opp (fun t => g t + e * (2 * c + 2 * t))). apply (is_derive_plus g); [exact D2|]. auto_derive; [exact Logic.I|ring].
      - exists (mkposreal d D). intros t Ht. change (Rabs (t - 0) < d) in Ht. rewrite Rminus_0_r in Ht. unfold w. rewrite move0, Rmult_0_l, Rplus_0_r.
        assert (CL : close d (move j t p) p). { unfold close. assert (Z0 : forall x, Rabs (x - x) < d) by (intros x; replace (x - x) with 0 by ring; rewrite Rabs_R0; exact D). assert (Z2 : forall x y : R, Rabs y < d -> Rabs (x + y - x) < d) by (intros x y Hy; replace (x + y - x) with y by ring; exact Hy). pose proof (fun x => Z2 x t Ht) as Z1. cbv beta in Z1. destruct j as [|[|[|]]]; [..|lia]; cbn [move px py pz]; auto. }
        specialize (M _ CL). lra. }
    lra. }
  pose proof (A 0%nat lx ltac:(lia) X). pose proof (A 1%nat ly ltac:(lia) Y). pose proof (A 2%nat lz ltac:(lia) Z). lra.
Qed.
Lemma no_strict_maximum f p d0 : 0 < d0 -> (forall q, close d0 q p -> cont f q /\ subharmonic f q) -> ~ strict_maximum f p.
Proof.
  intros D0 N (d1 & D1 & M).
  destruct (proj1 (N p ltac:(apply close_self, D0)) 1 ltac:(lra)) as (d2 & D2 & B).
  (* a box of half width r around p *)
  set (r := Rmin (d1 / 2) (Rmin (d0 / 2) (d2 / 2))).
  assert (r0 : 0 < r) by (repeat apply Rmin_glb_lt; lra). assert (r1 : r <= d1 / 2) by apply Rmin_l.
  assert (r2 : r <= d0 / 2) by (eapply Rle_trans; [apply Rmin_r|apply Rmin_l]). assert (r3 : r <= d2 / 2) by (eapply Rle_trans; [apply Rmin_r|apply Rmin_r]).
  set (m := P3 (px p) (py p) (pz p - r)). set (o := P3 0 0 r). set (g := fun q => f (shift m q)).
  assert (EO : shift m o = p) by (destruct p as [x y z]; unfold shift, m, o; cbn [px py pz]; f_equal; ring).
  assert (GO : g o = f p) by (unfold g; rewrite EO; reflexivity).
  assert (IC : forall q, in_box r (2 * r) q -> forall e, r < e -> close e (shift m q) p).
  { intros q (A & A' & A'') e He. unfold close, shift, m. cbn [px py pz]. repeat split; apply Rabs_def1; lra. }
  assert (GC : forall q, in_box r (2 * r) q -> cont g q) by (intros q Q; apply shift_cont; apply N; apply IC; [exact Q|lra]).
  assert (GS : forall q, in_box r (2 * r) q -> subharmonic g q).
  { intros q Q. destruct (N (shift m q) ltac:(apply IC; [exact Q|lra])) as [_ (lx & ly & lz & X & Y & Z & S)]. exists lx, ly, lz. repeat split; try exact S; apply shift_partial; try lia; assumption. }
  assert (GB : forall q, in_box r (2 * r) q -> g o - 1 <= g q <= g o + 1).
  { intros q Q. rewrite GO. unfold g. specialize (B (shift m q) ltac:(apply IC; [exact Q|lra])). apply Rabs_def2 in B. lra. }
  assert (IO : in_box r (2 * r) o) by (unfold in_box, o; cbn [px py pz]; lra).
  (* the largest value on the surface of the box *)
  set (inside := fun q => - r < px q < r /\ - r < py q < r /\ 0 < pz q < 2 * r).
  assert (DEC : forall q, {inside q} + {~ inside q}).
  { intros q. unfold inside. destruct (Rlt_dec (- r) (px q)); [|right; lra]. destruct (Rlt_dec (px q) r); [|right; lra]. destruct (Rlt_dec (- r) (py q)); [|right; lra].
    destruct (Rlt_dec (py q) r); [|right; lra]. destruct (Rlt_dec 0 (pz q)); [|right; lra]. destruct (Rlt_dec (pz q) (2 * r)); [left; lra|right; lra]. }
  assert (ST : forall q, in_box r (2 * r) q -> ~ inside q -> g q < g o).
  { intros q Q I. rewrite GO. unfold g. apply M.
    - intros E. apply I. unfold inside. rewrite <- EO in E. unfold shift, o in E. cbn [px py pz] in E. injection E as E1 E2 E3. lra.
    - destruct Q as (A & A' & A''). unfold distance2, shift, m. cbn [px py pz]. replace (px q + px p - px p) with (px q) by ring. replace (py q + py p - py p) with (py q) by ring. replace (pz q + (pz p - r) - pz p) with (pz q - r) by ring.
      assert (SQ : forall x, - r <= x <= r -> x ^ 2 <= r ^ 2) by (intros x Hx; rewrite <- !Rsqr_pow2; apply neg_pos_Rsqr_le; lra).
      pose proof (SQ _ A). pose proof (SQ _ A'). pose proof (SQ (pz q - r) ltac:(lra)).
      assert (4 * r ^ 2 <= d1 ^ 2) by (replace (4 * r ^ 2) with ((2 * r) ^ 2) by ring; apply pow_incr; lra). pose proof (pow_lt r 2 r0). lra. }
  set (v := fun q => if DEC q then g o - 1 else g q).
  destruct (box_attains v r (2 * r) (g o + 1) ltac:(lra) ltac:(lra)) as (b & Bb & BM).
  { intros q eps Q E. unfold v at 2. destruct (DEC q) as [I|I].
    - set (dd := Rmin (Rmin (r - px q) (px q + r)) (Rmin (Rmin (r - py q) (py q + r)) (Rmin (pz q) (2 * r - pz q)))).
      unfold inside in I. exists dd. split; [unfold dd; repeat apply Rmin_glb_lt; lra|]. intros u _ (c1 & c2 & c3).
      assert (X1 : dd <= r - px q) by (unfold dd; eapply Rle_trans; [apply Rmin_l|apply Rmin_l]). assert (X2 : dd <= px q + r) by (unfold dd; eapply Rle_trans; [apply Rmin_l|apply Rmin_r]).
      assert (X3 : dd <= r - py q) by (unfold dd; eapply Rle_trans; [apply Rmin_r|]; eapply Rle_trans; [apply Rmin_l|apply Rmin_l]). assert (X4 : dd <= py q + r) by (unfold dd; eapply Rle_trans; [apply Rmin_r|]; eapply Rle_trans; [apply Rmin_l|apply Rmin_r]).
      assert (X5 : dd <= pz q) by (unfold dd; eapply Rle_trans; [apply Rmin_r|]; eapply Rle_trans; [apply Rmin_r|apply Rmin_l]). assert (X6 : dd <= 2 * r - pz q) by (unfold dd; eapply Rle_trans; [apply Rmin_r|]; eapply Rle_trans; [apply Rmin_r|apply Rmin_r]).
      apply Rabs_def2 in c1. apply Rabs_def2 in c2. apply Rabs_def2 in c3. unfold v. destruct (DEC u) as [_|I']; [lra|]. exfalso. apply I'. unfold inside. lra.
    - destruct (GC q Q eps E) as (dd & DD & X). exists dd. split; [exact DD|]. intros u U C. unfold v. destruct (DEC u); [pose proof (GB q Q); lra|]. specialize (X u C). apply Rabs_def2 in X. lra. }
  { intros q Q. unfold v. destruct (DEC q); [lra|apply GB, Q]. }
  assert (KB : exists k, k < g o /\ forall q, in_box r (2 * r) q -> ~ inside q -> g q <= k).
  { exists (v b). split.
    - unfold v. destruct (DEC b) as [I|I]; [lra|apply ST; assumption].
    - intros q Q I. pose proof (BM q Q) as X. unfold v in X at 1. destruct (DEC q); [contradiction|exact X]. }
  destruct KB as (k & K0 & K).
  (* the largest value of g + e |q - o|^2 is inside *)
  set (e := (g o - k) / (4 * r ^ 2)). pose proof (pow_lt r 2 r0) as rr. assert (e0 : 0 < e) by (apply Rdiv_lt_0_compat; lra).
  set (w := fun q => g q + e * distance2 q o).
  assert (DB : forall q, in_box r (2 * r) q -> 0 <= distance2 q o <= 3 * r ^ 2).
  { intros q (A & A' & A''). unfold distance2, o. cbn [px py pz]. assert (SQ : forall x, - r <= x <= r -> 0 <= x ^ 2 <= r ^ 2) by (intros x Hx; split; [apply pow2_ge_0|rewrite <- !Rsqr_pow2; apply neg_pos_Rsqr_le; lra]).
    pose proof (SQ (px q - 0) ltac:(lra)). pose proof (SQ (py q - 0) ltac:(lra)). pose proof (SQ (pz q - r) ltac:(lra)). lra. }
  destruct (box_attains w r (2 * r) (g o + 1 + e * (3 * r ^ 2)) ltac:(lra) ltac:(lra)) as (t & Tb & TM).
  { intros q eps Q E. assert (C : cont w q).
    { unfold w. apply (cont_plus g (fun u => e * distance2 u o)); [apply GC, Q|]. apply cont_scal. unfold distance2, o. cbn [px py pz].
      apply (cont_plus (fun u => (px u - 0) ^ 2 + (py u - 0) ^ 2) (fun u => (pz u - r) ^ 2)); [apply (cont_plus (fun u => (px u - 0) ^ 2) (fun u => (py u - 0) ^ 2))|];
        [apply (cont_pow (fun u => px u - 0))|apply (cont_pow (fun u => py u - 0))|apply (cont_pow (fun u => pz u - r))];
        [apply (cont_minus px (fun _ => 0)); [apply cont_px|apply cont_const]|apply (cont_minus py (fun _ => 0)); [apply cont_py|apply cont_const]|apply (cont_minus pz (fun _ => r)); [apply cont_pz|apply cont_const]]. }
    destruct (C eps E) as (dd & DD & X). exists dd. split; [exact DD|]. intros u _ U. specialize (X u U). apply Rabs_def2 in X. lra. }
  { intros q Q. unfold w. pose proof (GB q Q). pose proof (DB q Q). assert (e * distance2 q o <= e * (3 * r ^ 2)) by (apply Rmult_le_compat_l; lra). lra. }
  destruct (DEC t) as [I|I].
  - set (dd := Rmin (Rmin (r - px t) (px t + r)) (Rmin (Rmin (r - py t) (py t + r)) (Rmin (pz t) (2 * r - pz t)))).
    unfold inside in I. apply (no_top g t o e dd (GS t Tb) e0); [unfold dd; repeat apply Rmin_glb_lt; lra|]. intros u (c1 & c2 & c3).
    assert (X1 : dd <= r - px t) by (unfold dd; eapply Rle_trans; [apply Rmin_l|apply Rmin_l]). assert (X2 : dd <= px t + r) by (unfold dd; eapply Rle_trans; [apply Rmin_l|apply Rmin_r]).
    assert (X3 : dd <= r - py t) by (unfold dd; eapply Rle_trans; [apply Rmin_r|]; eapply Rle_trans; [apply Rmin_l|apply Rmin_l]). assert (X4 : dd <= py t + r) by (unfold dd; eapply Rle_trans; [apply Rmin_r|]; eapply Rle_trans; [apply Rmin_l|apply Rmin_r]).
    assert (X5 : dd <= pz t) by (unfold dd; eapply Rle_trans; [apply Rmin_r|]; eapply Rle_trans; [apply Rmin_r|apply Rmin_l]). assert (X6 : dd <= 2 * r - pz t) by (unfold dd; eapply Rle_trans; [apply Rmin_r|]; eapply Rle_trans; [apply Rmin_r|apply Rmin_r]).
    apply Rabs_def2 in c1. apply Rabs_def2 in c2. apply Rabs_def2 in c3. apply (TM u). unfold in_box. lra.
  - pose proof (K t Tb I) as KT. pose proof (TM o IO) as TO. unfold w in TO. pose proof (DB t Tb) as DT.
    assert (Z : distance2 o o = 0) by (unfold distance2; ring). rewrite Z in TO.
    assert (EE : e * (3 * r ^ 2) = 3 / 4 * (g o - k)) by (unfold e; field; lra). assert (e * distance2 t o <= e * (3 * r ^ 2)) by (apply Rmult_le_compat_l; lra). lra.
Qed.

(** ** the potentials of a system *)
Lemma second_from (f g : p3 -> R) k p l : locally 0 (fun t => partial f k (move k t p) (g (move k t p))) -> partial g k p l -> second_partial f k p l.
Proof.
  intros A B. exists (fun t => g (move k t p)). split; [|exact B]. eapply filter_imp; [|exact A]. intros t H. apply partial_line. exact H.
Qed.
Lemma smooth_locally s k p : (forall e, In e s -> smooth (egeom e) p) -> locally 0 (fun t => forall e, In e s -> smooth (egeom e) (move k t p)).
Proof. intros S. apply (locally_forall_in s (fun e t => smooth (egeom e) (move k t p))). intros e He. apply smooth_open. auto. Qed.
Lemma total_second c s typ x y k p : (forall e, In e s -> smooth (egeom e) p) -> shares typ x y -> (k < 3)%nat ->
  second_partial (potential_entry c s typ 0 []) k p (potential_entry c s typ 2 [k; k] p).
Proof.
  intros S H K. assert (W : forall e, In e s -> well_formed (egeom e)) by (intros e He; eapply smooth_wf; eauto).
  assert (P : forall n idx q, (n <= 3)%nat -> idx_of_order n idx -> (forall e, In e s -> smooth (egeom e) q) -> partial (potential_entry c s typ n idx) k q (potential_entry c s typ (Datatypes.S n) (k :: idx) q)).
  { intros n idx q N I Q. rewrite (shares_entry c s typ x y) by (assumption || lia).
    apply (partial_ext (fun r => x * tensor_entry s TDc n idx r + y * pseudo_entry c s n idx r)); [intros r; symmetry; apply shares_entry; auto; lia|].
    apply (partial_plus (fun r => x * tensor_entry s TDc n idx r) (fun r => y * pseudo_entry c s n idx r)); apply partial_scal; [apply (smooth_derivatives s TDc n q idx k); auto|apply (smooth_pseudo c s n q idx k); auto]. }
  apply (second_from _ (potential_entry c s typ 1 [k])).
  - eapply filter_imp; [|apply (smooth_locally s k p S)]. intros t Q. apply P; [lia|exact idx0|exact Q].
  - apply P; [lia|apply idx1, K|exact S].
Qed.
Lemma total_subharmonic c s typ x y p : (forall e, In e s -> smooth (egeom e) p) -> shares typ x y -> subharmonic (potential_entry c s typ 0 []) p.
Proof.
  intros S H. assert (W : forall e, In e s -> well_formed (egeom e)) by (intros e He; eapply smooth_wf; eauto).
  do 3 eexists. split; [apply (total_second c s typ x y 0 p S H); lia|]. split; [apply (total_second c s typ x y 1 p S H); lia|]. split; [apply (total_second c s typ x y 2 p S H); lia|].
  rewrite !(shares_entry c s typ x y) by (assumption || lia). pose proof (entry_traceless s TDc p W) as A. pose proof (pseudo_trace c s p W) as B.
  assert (0 <= 2 * c ^ 2 * rf_strength s p) by (apply Rmult_le_pos; [pose proof (pow2_ge_0 c); lra|apply rf_strength_pos]).
  destruct H as [(_ & -> & ->)|[(_ & -> & ->)|(_ & -> & ->)]]; lra.
Qed.
Lemma total_cont c s typ x y p : (forall e, In e s -> smooth (egeom e) p) -> shares typ x y -> cont (potential_entry c s typ 0 []) p.
Proof.
  intros S H. assert (W : forall e, In e s -> well_formed (egeom e)) by (intros e He; eapply smooth_wf; eauto).
  apply (cont_ext (fun q => x * tensor_entry s TDc 0 [] q + y * pseudo_entry c s 0 [] q)); [intros q; symmetry; apply shares_entry; auto; lia|].
  apply (cont_plus (fun q => x * tensor_entry s TDc 0 [] q) (fun q => y * pseudo_entry c s 0 [] q)); apply cont_scal; [apply cont_tensor|apply cont_pseudo]; auto; try lia; exact idx0.
Qed.
Lemma total_no_maximum c s typ p : (forall e, In e s -> smooth (egeom e) p) -> In typ ["tot"; "dc"; "rf"]%string -> ~ strict_maximum (potential_entry c s typ 0 []) p.
Proof.
  intros S T. destruct (smooth_near s p S) as (d & D0 & D).
  assert (H : exists x y, shares typ x y) by (unfold shares; destruct T as [<-|[<-|[<-|[]]]]; eauto 8). destruct H as (x & y & H).
  apply (no_strict_maximum _ p d D0). intros q Q. split; [apply (total_cont c s typ x y)|apply (total_subharmonic c s typ x y)]; auto.
Qed.
Lemma electrical_no_minimum s t k p : (forall e, In e s -> smooth (egeom e) p) ->
  ~ strict_minimum (fun q => tensor_entry s TDc 0 [] q + k * tensor_entry s t 0 [] q) p /\ ~ strict_maximum (fun q => tensor_entry s TDc 0 [] q + k * tensor_entry s t 0 [] q) p.
Proof.
  intros S. destruct (smooth_near s p S) as (d & D0 & D). set (f := fun q => tensor_entry s TDc 0 [] q + k * tensor_entry s t 0 [] q).
  assert (HF : forall q, close d q p -> harmonic_at f q) by (intros q Q; apply harmonic_lin; apply smooth_harmonic; auto; try lia; exact idx0).
  assert (CF : forall q, close d q p -> cont f q) by (intros q Q; apply cont_lin; apply cont_tensor; auto; try lia; exact idx0).
  assert (SH : forall g q, harmonic_at g q -> subharmonic g q) by (intros g q (a & b & c & A & B & C & Z); exists a, b, c; repeat split; auto; lra).
  split.
  - intros (d1 & D1 & M). apply (no_strict_maximum (fun q => 0 + -1 * f q) p d D0).
    + intros q Q. split; [apply cont_lin; [apply cont_const|apply CF, Q]|]. apply SH, harmonic_opp, HF, Q.
    + exists d1. split; [exact D1|]. intros q N Q. specialize (M q N Q). lra.
  - apply (no_strict_maximum f p d D0). intros q Q. split; [apply CF, Q|apply SH, HF, Q].
Qed.
