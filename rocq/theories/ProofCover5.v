(** Proof of C182: the images do not take the potential out of its range. *)
From Coq Require Import Classical.
From Coquelicot Require Import Coquelicot.
From Verif Require Import Base ModelExpr ModelUtils ModelField ModelGeom SpecTensor SpecField SpecPoly SpecMax SpecCentre SpecTile SpecEarnshaw SpecCover SpecDirichlet ProofField ProofDeriv ProofSys ProofPoly ProofPoly2 ProofPoly3 ProofMax3 ProofEarnshaw ProofCover ProofCover2 ProofCover3 ProofCover4 ProofDirichlet.
Import ListNotations.
Open Scope R_scope.
Notation length := List.length.

Lemma covered_0 g S h p : flat_area g S -> covered g 0 h p = bare g p.
Proof.
  intros F. destruct p as [x y z]. rewrite (covered_sum g S) by exact F. change (images (Z.of_nat 0)) with [0%Z]. unfold sum_over. cbn [map sumR].
  unfold bare. replace (z + 2 * 0 * h) with z by ring. ring.
Qed.
Lemma covered_harmonic g S n h p : flat_area g S -> 0 < h -> slab h p -> harmonic_at (covered g n h) p.
Proof.
  intros F Hh Hp. apply (harmonic_ext (covered_entry g n h 0 [])); [intros q; apply (entry_0 g S), F|].
  assert (X : forall k, (k < 3)%nat -> second_partial (covered_entry g n h 0 []) k p (covered_entry g n h 2 [k; k] p)).
  { intros k K. exists (fun t => covered_entry g n h 1 [k] (move k t p)). split.
    - destruct (slab_move h p Hp) as (d & D0 & D). exists (mkposreal d D0). intros t Ht.
      apply (line_d g S n h 0 [] k p t F Hh); [|lia|exact K|exact idx0]. apply D. unfold ball in Ht. cbn in Ht. unfold AbsRing_ball, minus, plus, opp, abs in Ht. cbn in Ht. rewrite Ropp_0, Rplus_0_r in Ht. exact Ht.
    - pose proof (line_d g S n h 1 [k] k p 0 F Hh) as L. rewrite move_0 in L. apply L; [exact Hp|lia|exact K|exact (idx1 k K)]. }
  exists (covered_entry g n h 2 [0; 0]%nat p), (covered_entry g n h 2 [1; 1]%nat p), (covered_entry g n h 2 [2; 2]%nat p).
  split; [apply X; lia|]. split; [apply X; lia|]. split; [apply X; lia|]. apply (entry_trace g S), F.
Qed.
(** close to the plane the images do not matter, *)
Lemma covered_plane g S n h p : flat_area g S -> 0 < h -> 0 <= pz p <= h -> Rabs (covered g n h p - covered g 0 h p) <= 18 * S / (8 * PI * h ^ 3) * pz p.
Proof.
  intros F Hh Hp. pose proof (area_nonneg g S F) as S0'. pose proof pi3 as PP. pose proof (pow_lt h 3 Hh) as H3.
  assert (D0 : 0 < 8 * PI * h ^ 3) by (apply Rmult_lt_0_compat; lra).
  assert (K0 : 0 <= S * pz p / (8 * PI * h ^ 3)) by (unfold Rdiv; apply Rmult_le_pos; [apply Rmult_le_pos; lra|left; apply Rinv_0_lt_compat, D0]).
  destruct n as [|n].
  - rewrite Rminus_eq_0, Rabs_R0. replace (18 * S / (8 * PI * h ^ 3) * pz p) with (18 * (S * pz p / (8 * PI * h ^ 3))) by (field; lra). lra.
  - pose proof (limit_plane g S h p F Hh Hp) as A. pose proof (limit_error g S h p (Datatypes.S n) F Hh Hp ltac:(lia)) as B.
    assert (N : 1 <= INR (Datatypes.S n) ^ 2). { rewrite S_INR. pose proof (pos_INR n). replace ((INR n + 1) ^ 2) with (INR n * INR n + 2 * INR n + 1) by ring. pose proof (Rmult_le_pos _ _ H H). lra. }
    assert (B' : S * pz p / (8 * PI * h ^ 3 * INR (Datatypes.S n) ^ 2) <= S * pz p / (8 * PI * h ^ 3)).
    { unfold Rdiv. apply Rmult_le_compat_l; [apply Rmult_le_pos; lra|]. apply Rinv_le_contravar; [exact D0|]. rewrite <- (Rmult_1_r (8 * PI * h ^ 3)) at 1. apply Rmult_le_compat_l; lra. }
    replace (covered g (Datatypes.S n) h p - covered g 0 h p) with ((covered g (Datatypes.S n) h p - limit_potential g h p) + (limit_potential g h p - covered g 0 h p)) by ring.
    eapply Rle_trans; [apply Rabs_triang|]. replace (18 * S / (8 * PI * h ^ 3) * pz p) with (S * pz p / (8 * PI * h ^ 3) + 17 * S * pz p / (8 * PI * h ^ 3)) by (field; lra). lra.
Qed.
(** and close to the cover only the last one does *)
Definition top (n : nat) (h : R) (p : p3) : p3 := P3 (px p) (py p) (pz p + 2 * INR n * h).
Lemma covered_top g S n h p : flat_area g S -> 0 < h -> h / 2 <= pz p <= h -> Rabs (covered g n h p - covered g 0 h (top n h p)) <= 17 * S / (PI * h ^ 3) * (h - pz p).
Proof.
  intros F Hh Hp. pose proof (area_nonneg g S F) as S0'. pose proof pi3 as PP. pose proof (pow_lt h 3 Hh) as H3.
  assert (D0 : 0 < PI * h ^ 3) by (apply Rmult_lt_0_compat; lra).
  assert (K0 : 0 <= S * (h - pz p) / (PI * h ^ 3)) by (unfold Rdiv; apply Rmult_le_pos; [apply Rmult_le_pos; lra|left; apply Rinv_0_lt_compat, D0]).
  replace (17 * S / (PI * h ^ 3) * (h - pz p)) with (S * (h - pz p) / (PI * h ^ 3) * 17) by (field; lra).
  rewrite (covered_0 g S h (top n h p) F). destruct p as [x y z]. unfold top. cbn [px py pz] in *.
  destruct n as [|n].
  - rewrite (covered_0 g S h _ F). cbn [INR]. replace (z + 2 * 0 * h) with z by ring. rewrite Rminus_eq_0, Rabs_R0. apply Rmult_le_pos; lra.
  - eapply Rle_trans; [apply (cover_pairs g S h x y z (Datatypes.S n) F Hh Hp); lia|]. apply Rmult_le_compat_l; [exact K0|].
    assert (0 < / INR (Datatypes.S n)) by (apply Rinv_0_lt_compat; rewrite S_INR; pose proof (pos_INR n); lra). lra.
Qed.

(** ** the potential of a charge *)
Lemma coulomb_1d u m : 0 < u ^ 2 + m -> exists g : R -> R, locally 0 (fun t => is_derive (fun t => / sqrt ((u + t) ^ 2 + m)) t (g t)) /\
  is_derive g 0 (- / sqrt (u ^ 2 + m) ^ 3 + 3 * u ^ 2 * / sqrt (u ^ 2 + m) ^ 5).
Proof.
  intros P. exists (fun t => - (u + t) * / sqrt ((u + t) ^ 2 + m) ^ 3). split.
  - assert (L : locally 0 (fun t => 0 < (u + t) ^ 2 + m)).
    { assert (C : continuous (fun t => (u + t) ^ 2 + m) 0) by (apply @ex_derive_continuous; auto_derive; exact Logic.I).
      apply (C (fun v => 0 < v)). apply (open_gt 0). rewrite Rplus_0_r. exact P. }
    revert L. apply filter_imp. intros t T. pose proof (sqrt_lt_R0 _ T) as Q. assert (Q' : sqrt ((u + t) * ((u + t) * 1) + m) <> 0) by (replace ((u + t) * ((u + t) * 1) + m) with ((u + t) ^ 2 + m) by ring; lra).
    auto_derive; [split; [exact T|split; [exact Q'|exact Logic.I]]|].
    replace ((u + t) * ((u + t) * 1) + m) with ((u + t) ^ 2 + m) by ring. field. lra.
  - pose proof (sqrt_lt_R0 _ P) as Q. assert (E : (u + 0) * ((u + 0) * 1) + m = u ^ 2 + m) by ring.
    auto_derive; rewrite !E; [split; [exact P|split; [|exact Logic.I]]; repeat apply Rmult_integral_contrapositive_currified; lra|]. field. lra.
Qed.
Lemma coulomb_harmonic a b k p : 0 < (px p - a) ^ 2 + (py p - b) ^ 2 + (pz p - k) ^ 2 ->
  harmonic_at (fun q => / sqrt ((px q - a) ^ 2 + (py q - b) ^ 2 + (pz q - k) ^ 2)) p.
Proof.
  intros P. destruct p as [x y z]. cbn [px py pz] in P. set (r2 := (x - a) ^ 2 + (y - b) ^ 2 + (z - k) ^ 2) in *. pose proof (sqrt_lt_R0 _ P) as Q.
  assert (S2 : sqrt r2 ^ 2 = r2) by (apply pow2_sqrt; lra).
  assert (EX : forall u m f, u ^ 2 + m = r2 -> (forall t, f t = / sqrt ((u + t) ^ 2 + m)) -> exists g : R -> R, locally 0 (fun t => is_derive f t (g t)) /\
    is_derive g 0 (- / sqrt r2 ^ 3 + 3 * u ^ 2 * / sqrt r2 ^ 5)).
  { intros u m f E Ef. destruct (coulomb_1d u m ltac:(lra)) as (g & G1 & G2). rewrite E in G2. exists g. split; [|exact G2].
    revert G1. apply filter_imp. intros t. apply is_derive_ext. intros s. symmetry. apply Ef. }
  exists (- / sqrt r2 ^ 3 + 3 * (x - a) ^ 2 * / sqrt r2 ^ 5), (- / sqrt r2 ^ 3 + 3 * (y - b) ^ 2 * / sqrt r2 ^ 5), (- / sqrt r2 ^ 3 + 3 * (z - k) ^ 2 * / sqrt r2 ^ 5).
  split; [|split; [|split]].
  - apply (EX _ ((y - b) ^ 2 + (z - k) ^ 2)); [unfold r2; ring|]. intros t. cbn [move px py pz]. do 2 f_equal. ring.
  - apply (EX _ ((x - a) ^ 2 + (z - k) ^ 2)); [unfold r2; ring|]. intros t. cbn [move px py pz]. do 2 f_equal. ring.
  - apply (EX _ ((x - a) ^ 2 + (y - b) ^ 2)); [unfold r2; ring|]. intros t. cbn [move px py pz]. do 2 f_equal. ring.
  - replace (- / sqrt r2 ^ 3 + 3 * (x - a) ^ 2 * / sqrt r2 ^ 5 + (- / sqrt r2 ^ 3 + 3 * (y - b) ^ 2 * / sqrt r2 ^ 5) + (- / sqrt r2 ^ 3 + 3 * (z - k) ^ 2 * / sqrt r2 ^ 5))
      with (- 3 * / sqrt r2 ^ 3 + 3 * r2 * / sqrt r2 ^ 5) by (unfold r2; ring).
    rewrite <- S2 at 2. field. lra.
Qed.
Lemma coulomb_cont a b k p : 0 < (px p - a) ^ 2 + (py p - b) ^ 2 + (pz p - k) ^ 2 ->
  cont (fun q => / sqrt ((px q - a) ^ 2 + (py q - b) ^ 2 + (pz q - k) ^ 2)) p.
Proof.
  intros P. apply (cont_comp (fun q => (px q - a) ^ 2 + (py q - b) ^ 2 + (pz q - k) ^ 2) (fun v => / sqrt v)).
  - apply cont_plus; [apply cont_plus|]; apply (cont_sq (fun q => _ q - _)).
    + apply (cont_ext (fun q => px q + -1 * a)); [intros; ring|]. apply (cont_lin px (fun _ => a)); [apply cont_px|apply cont_const].
    + apply (cont_ext (fun q => py q + -1 * b)); [intros; ring|]. apply (cont_lin py (fun _ => b)); [apply cont_py|apply cont_const].
    + apply (cont_ext (fun q => pz q + -1 * k)); [intros; ring|]. apply (cont_lin pz (fun _ => k)); [apply cont_pz|apply cont_const].
  - apply @ex_derive_continuous. auto_derive. pose proof (sqrt_lt_R0 _ P). repeat split; lra.
Qed.
(** a positive continuous function on a box has a positive lower bound *)
Lemma box_positive (D : p3 -> R) r h : 0 <= r -> 0 <= h -> (forall p, in_box r h p -> cont D p /\ 0 < D p) -> exists c, 0 < c /\ forall p, in_box r h p -> c <= D p.
Proof.
  intros R0 H0 C. apply NNPP. intros N.
  assert (X : forall p, in_box r h p -> exists q, in_box r h q /\ - D p < - D q).
  { intros p P. apply NNPP. intros M. apply N. exists (D p). split; [apply C, P|]. intros q Q. apply Rnot_lt_le. intros L. apply M. exists q. split; [exact Q|lra]. }
  set (o := P3 0 0 0). assert (O : in_box r h o) by (unfold in_box, o; cbn [px py pz]; lra).
  assert (- D o <= - D o - 1); [|lra].
  apply (box_max (fun p => - D p) r h (- D o - 1) 0); [| | |exact O].
  - intros p eps P E. destruct (proj1 (C p P) eps E) as (d & D0 & Hd). exists d. split; [exact D0|]. intros q _ cl. specialize (Hd q cl). apply Rabs_def2 in Hd. lra.
  - intros p P. pose proof (proj2 (C p P)). lra.
  - intros p P. right. apply X, P.
Qed.

(** ** several electrodes *)
Section System.
Variables (h : R) (area c : electrode -> R) (s : list electrode).
Hypotheses (Hh : 0 < h) (F : forall e, In e s -> flat_area (egeom e) (area e)).
Let pot (n : nat) (p : p3) : R := sum_over s (fun e => c e * covered (egeom e) n h p).

Lemma sum_harmonic n p : slab h p -> harmonic_at (pot n) p.
Proof.
  intros P. unfold pot. clear pot. induction s as [|e l IH].
  - apply (harmonic_ext (quad 0 0 0 0)); [intros q; unfold quad, sum_over; cbn; ring|apply quad_harmonic].
  - apply (harmonic_ext (fun q => sum_over l (fun e => c e * covered (egeom e) n h q) + c e * covered (egeom e) n h q)).
    + intros q. unfold sum_over. cbn [map sumR]. ring.
    + apply harmonic_lin; [apply IH; intros d D; apply F; right; exact D|]. apply (covered_harmonic _ (area e)); [apply F; left; reflexivity|exact Hh|exact P].
Qed.
Lemma sum_cont n p : slab h p -> cont (pot n) p.
Proof.
  intros P. unfold pot. clear pot. induction s as [|e l IH].
  - apply (cont_ext (fun _ => 0)); [intros q; unfold sum_over; reflexivity|apply cont_const].
  - apply (cont_ext (fun q => sum_over l (fun e => c e * covered (egeom e) n h q) + c e * covered (egeom e) n h q)).
    + intros q. unfold sum_over. cbn [map sumR]. ring.
    + apply cont_lin; [apply IH; intros d D; apply F; right; exact D|]. apply (covered_cont _ (area e)); [apply F; left; reflexivity|exact Hh|exact P].
Qed.
Lemma sum_cont0 p : 0 < pz p -> cont (pot 0) p.
Proof.
  intros P. unfold pot. clear pot. induction s as [|e l IH].
  - apply (cont_ext (fun _ => 0)); [intros q; unfold sum_over; reflexivity|apply cont_const].
  - apply (cont_ext (fun q => sum_over l (fun e => c e * covered (egeom e) 0 h q) + c e * bare (egeom e) q)).
    + intros q. unfold sum_over. cbn [map sumR]. rewrite (covered_0 _ (area e)) by (apply F; left; reflexivity). ring.
    + apply cont_lin; [apply IH; intros d D; apply F; right; exact D|]. apply (bare_cont _ (area e)); [apply F; left; reflexivity|lra].
Qed.
Lemma sum_dist (f g b : electrode -> R) : (forall e, In e s -> Rabs (f e - g e) <= b e) ->
  Rabs (sum_over s (fun e => c e * f e) - sum_over s (fun e => c e * g e)) <= sum_over s (fun e => Rabs (c e) * b e).
Proof.
  clear. intros H. induction s as [|e l IH]; unfold sum_over in *; cbn [map sumR]; [rewrite Rminus_eq_0, Rabs_R0; lra|].
  specialize (IH (fun d D => H d (or_intror D))). specialize (H e (or_introl eq_refl)).
  set (A := sumR (map (fun e => c e * f e) l)) in *. set (B := sumR (map (fun e => c e * g e) l)) in *.
  replace (c e * f e + A - (c e * g e + B)) with (c e * (f e - g e) + (A - B)) by ring. eapply Rle_trans; [apply Rabs_triang|]. rewrite Rabs_mult.
  apply Rplus_le_compat; [|exact IH]. apply Rmult_le_compat_l; [apply Rabs_pos|exact H].
Qed.
Lemma sum_factor (b : electrode -> R) k : sum_over s (fun e => Rabs (c e) * (b e * k)) = sum_over s (fun e => Rabs (c e) * b e) * k.
Proof. clear. unfold sum_over. induction s as [|e l IH]; cbn [map sumR]; [ring|]. rewrite IH. ring. Qed.
Lemma sum_nonneg (b : electrode -> R) : (forall e, In e s -> 0 <= b e) -> 0 <= sum_over s (fun e => Rabs (c e) * b e).
Proof.
  clear. intros H. unfold sum_over. induction s as [|e l IH]; cbn [map sumR]; [lra|]. specialize (IH (fun d D => H d (or_intror D))).
  pose proof (Rmult_le_pos _ _ (Rabs_pos (c e)) (H e (or_introl eq_refl))). lra.
Qed.
Lemma const_pos a S : 0 < a -> 0 <= S -> 0 <= S / (a * PI * h ^ 3).
Proof. intros A S0. pose proof pi3. pose proof (pow_lt h 3 Hh). unfold Rdiv. apply Rmult_le_pos; [exact S0|]. left. apply Rinv_0_lt_compat. apply Rmult_lt_0_compat; [|lra]. apply Rmult_lt_0_compat; lra. Qed.
Lemma sum_plane n : exists K, 0 <= K /\ forall p, 0 <= pz p <= h -> Rabs (pot n p - pot 0 p) <= K * pz p.
Proof.
  exists (sum_over s (fun e => Rabs (c e) * (18 * area e / (8 * PI * h ^ 3)))). split.
  - apply sum_nonneg. intros e He. apply const_pos; [lra|]. pose proof (area_nonneg _ _ (F e He)). lra.
  - intros p P. rewrite <- sum_factor. apply sum_dist. intros e He. apply covered_plane; [apply F, He|exact Hh|exact P].
Qed.
Lemma sum_top n : exists K, 0 <= K /\ forall p, h / 2 <= pz p <= h -> Rabs (pot n p - pot 0 (top n h p)) <= K * (h - pz p).
Proof.
  exists (sum_over s (fun e => Rabs (c e) * (17 * area e / (1 * PI * h ^ 3)))). split.
  - apply sum_nonneg. intros e He. apply const_pos; [lra|]. pose proof (area_nonneg _ _ (F e He)). lra.
  - intros p P. rewrite <- sum_factor. apply sum_dist. intros e He. replace (1 * PI) with PI by ring. apply covered_top; [apply F, He|exact Hh|exact P].
Qed.
Lemma top_on n p : pz p = h -> pot n p = pot 0 (top n h p).
Proof.
  intros E. destruct (sum_top n) as (K & K0 & H). specialize (H p ltac:(lra)). rewrite E, Rminus_eq_0, Rmult_0_r in H.
  pose proof (Rabs_pos (pot n p - pot 0 (top n h p))). destruct (Req_dec (pot n p - pot 0 (top n h p)) 0) as [Z|Z]; [lra|]. apply Rabs_pos_lt in Z. lra.
Qed.
Lemma top_above n p : 0 < pz p -> 0 < pz (top n h p).
Proof. intros P. unfold top. cbn [pz]. pose proof (pos_INR n). pose proof (Rmult_le_pos _ _ H (Rlt_le _ _ Hh)). lra. Qed.

(** a small multiple of [w] may be added if [w] is not positive on the planes
    where the potential reaches its bound *)
Lemma sum_add M n (w : p3 -> R) Bw : (forall q, 0 < pz q -> pot 0 q <= M) ->
  (forall p, slab h p -> harmonic_at w p) -> (forall p, 0 <= pz p <= h -> cont w p) ->
  (forall p, pz p = 0 -> w p <= 0) -> (forall p, pz p = h -> pot 0 (top n h p) + w p <= M) -> (forall p, 0 < pz p < h -> w p <= Bw) ->
  forall p, 0 < pz p < h -> pot n p + w p <= M.
Proof.
  intros UP W1 W2 W3 W4 W5.
  enough (X : forall p, 0 < pz p < h -> (fun q => (pot n q + 1 * w q) + -1 * M) p <= 0) by (intros p P; specialize (X p P); cbn beta in X; lra).
  destruct (sum_plane n) as (K & K0 & PL).
  apply (slab_upper _ h (K * h + Bw) Hh).
  - intros p P. assert (SL : slab h p) by (unfold slab; lra). split.
    + apply (harmonic_ext (fun q => (pot n q + 1 * w q) + -1 * (fun _ => M) q)); [reflexivity|]. apply harmonic_lin; [apply harmonic_lin; [apply sum_harmonic, SL|apply W1, SL]|].
      assert (QC : forall t, is_derive (fun _ : R => M) t 0) by (intros t; apply @is_derive_const).
      exists 0, 0, 0. split; [|split; [|split; [|ring]]]; exists (fun _ => 0); (split; [apply filter_forall; intros t; apply QC|apply @is_derive_const]).
    + apply (cont_tends h (fun q => (pot n q + 1 * w q) + -1 * M)). apply (cont_lin _ (fun _ => M)); [|apply cont_const]. apply cont_lin; [apply sum_cont, SL|apply W2; lra].
  - intros p [Z|Z] eps E.
    + destruct (W2 p ltac:(lra) (eps / 2) ltac:(lra)) as (d & D0 & D). exists (Rmin d (eps / (2 * (K + 1)))). split; [apply Rmin_glb_lt; [exact D0|apply Rdiv_lt_0_compat; lra]|].
      intros q Q (c1 & c2 & c3). pose proof (Rmin_l d (eps / (2 * (K + 1)))). pose proof (Rmin_r d (eps / (2 * (K + 1)))).
      specialize (D q ltac:(unfold close; lra)). apply Rabs_def2 in D. specialize (W3 p Z). specialize (UP q (proj1 Q)).
      specialize (PL q ltac:(lra)). rewrite Z, Rminus_0_r, (Rabs_right (pz q)) in c3 by lra.
      set (e := eps / (2 * (K + 1))) in *. assert (EE : (K + 1) * e = eps / 2) by (unfold e; field; lra). assert (e0 : 0 < e) by (unfold e; apply Rdiv_lt_0_compat; lra).
      assert (K * pz q <= K * e) by (apply Rmult_le_compat_l; lra). pose proof (Rle_abs (pot n q - pot 0 q)). lra.
    + assert (C : cont (fun q => pot n q + w q) p) by (apply cont_plus; [apply sum_cont; unfold slab; lra|apply W2; lra]).
      destruct (C eps E) as (d & D0 & D). exists d. split; [exact D0|]. intros q Q cl. specialize (D q cl). apply Rabs_def2 in D.
      rewrite (top_on n p Z) in D. specialize (W4 p Z). lra.
  - intros p P. specialize (W5 p P). specialize (UP p (proj1 P)). specialize (PL p ltac:(lra)). pose proof (Rle_abs (pot n p - pot 0 p)).
    assert (K * pz p <= K * h) by (apply Rmult_le_compat_l; lra). lra.
Qed.
Lemma sum_le M n p : (forall q, 0 < pz q -> pot 0 q <= M) -> 0 < pz p <= h -> pot n p <= M.
Proof.
  intros UP P. destruct (Req_dec (pz p) h) as [E|E]; [rewrite (top_on n p E); apply UP, top_above; lra|].
  enough (pot n p + (fun _ => 0) p <= M) by (cbn beta in *; lra). apply (sum_add M n (fun _ => 0) 0 UP); [| | | | |lra].
  - intros q _. apply (harmonic_ext (quad 0 0 0 0)); [intros r; unfold quad; ring|apply quad_harmonic].
  - intros q _. apply cont_const.
  - intros q _. lra.
  - intros q Q. specialize (UP (top n h q) (top_above n q ltac:(lra))). lra.
  - intros q _. lra.
Qed.
(** ** strict bounds *)
(** the potential of a charge above the cover and its mirror image in the plane, less a uniform field *)
Definition lens (a b : R) (p : p3) : R :=
  / sqrt ((px p - a) ^ 2 + (py p - b) ^ 2 + (2 * h - pz p) ^ 2) - / sqrt ((px p - a) ^ 2 + (py p - b) ^ 2 + (2 * h + pz p) ^ 2) - pz p / (4 * h ^ 2).
Lemma lens_plane a b p : pz p = 0 -> lens a b p = 0.
Proof. intros Z. unfold lens. rewrite Z, Rminus_0_r, Rplus_0_r. unfold Rdiv. ring. Qed.
Lemma lens_column a b z : 0 < z < h -> 0 < lens a b (P3 a b z).
Proof.
  intros Z. unfold lens. cbn [px py pz]. rewrite !Rminus_eq_0. replace (0 ^ 2 + 0 ^ 2 + (2 * h - z) ^ 2) with ((2 * h - z) ^ 2) by ring. replace (0 ^ 2 + 0 ^ 2 + (2 * h + z) ^ 2) with ((2 * h + z) ^ 2) by ring.
  rewrite !sqrt_pow2 by lra. assert (A : 0 < 4 * h ^ 2 - z ^ 2) by (replace (4 * h ^ 2 - z ^ 2) with ((2 * h - z) * (2 * h + z)) by ring; apply Rmult_lt_0_compat; lra).
  assert (H2 : 0 < h ^ 2) by (apply pow_lt, Hh). pose proof (pow_lt z 2 ltac:(lra)) as Z2.
  replace (/ (2 * h - z) - / (2 * h + z) - z / (4 * h ^ 2)) with (z * (4 * h ^ 2 + z ^ 2) / (4 * h ^ 2 * ((2 * h - z) * (2 * h + z)))) by (field; lra).
  apply Rdiv_lt_0_compat; [apply Rmult_lt_0_compat; lra|]. apply Rmult_lt_0_compat; [lra|]. apply Rmult_lt_0_compat; lra.
Qed.
Lemma lens_apart a b p : 0 <= pz p <= h -> 0 < (px p - a) ^ 2 + (py p - b) ^ 2 + (pz p - 2 * h) ^ 2 /\ 0 < (px p - a) ^ 2 + (py p - b) ^ 2 + (pz p - - (2 * h)) ^ 2.
Proof.
  intros P. pose proof (pow2_ge_0 (px p - a)). pose proof (pow2_ge_0 (py p - b)).
  assert (0 < (pz p - 2 * h) ^ 2) by (replace ((pz p - 2 * h) ^ 2) with ((2 * h - pz p) ^ 2) by ring; apply pow_lt; lra).
  assert (0 < (pz p - - (2 * h)) ^ 2) by (apply pow_lt; lra). lra.
Qed.
Lemma lens_eq a b q : (/ sqrt ((px q - a) ^ 2 + (py q - b) ^ 2 + (pz q - 2 * h) ^ 2) + -1 * / sqrt ((px q - a) ^ 2 + (py q - b) ^ 2 + (pz q - - (2 * h)) ^ 2)) + - / (4 * h ^ 2) * pz q = lens a b q.
Proof. unfold lens. replace (pz q - - (2 * h)) with (2 * h + pz q) by ring. replace ((pz q - 2 * h) ^ 2) with ((2 * h - pz q) ^ 2) by ring. unfold Rdiv. ring. Qed.
Lemma lens_harmonic a b p : slab h p -> harmonic_at (lens a b) p.
Proof.
  intros [P1 P2]. apply (harmonic_ext _ _ p (lens_eq a b)). pose proof (pow2_ge_0 (px p - a)). pose proof (pow2_ge_0 (py p - b)).
  apply (harmonic_lin (fun q => / sqrt ((px q - a) ^ 2 + (py q - b) ^ 2 + (pz q - 2 * h) ^ 2) + -1 * / sqrt ((px q - a) ^ 2 + (py q - b) ^ 2 + (pz q - - (2 * h)) ^ 2)) pz).
  - apply harmonic_lin; apply coulomb_harmonic.
    + assert (0 < (pz p - 2 * h) ^ 2) by (replace ((pz p - 2 * h) ^ 2) with ((2 * h - pz p) ^ 2) by ring; apply pow_lt; lra). lra.
    + assert (0 < (pz p - - (2 * h)) ^ 2) by (apply pow_lt; lra). lra.
  - apply (harmonic_ext (quad 0 0 1 0)); [intros r; unfold quad; ring|apply quad_harmonic].
Qed.
Lemma lens_cont a b p : 0 <= pz p <= h -> cont (lens a b) p.
Proof.
  intros P. apply (cont_ext _ _ p (lens_eq a b)). destruct (lens_apart a b p P).
  apply (cont_lin (fun q => / sqrt ((px q - a) ^ 2 + (py q - b) ^ 2 + (pz q - 2 * h) ^ 2) + -1 * / sqrt ((px q - a) ^ 2 + (py q - b) ^ 2 + (pz q - - (2 * h)) ^ 2)) pz); [|apply cont_pz].
  apply cont_lin; apply coulomb_cont; assumption.
Qed.
Lemma lens_le a b p r : 0 <= pz p <= h -> 0 < r -> r ^ 2 <= (px p - a) ^ 2 + (py p - b) ^ 2 + (2 * h - pz p) ^ 2 -> lens a b p <= / r - pz p / (4 * h ^ 2).
Proof.
  intros P R0 R2. unfold lens. pose proof (lens_apart a b p P) as [A B]. replace (pz p - - (2 * h)) with (2 * h + pz p) in B by ring.
  pose proof (Rinv_0_lt_compat _ (sqrt_lt_R0 _ B)). assert (/ sqrt ((px p - a) ^ 2 + (py p - b) ^ 2 + (2 * h - pz p) ^ 2) <= / r); [|lra].
  apply Rinv_le_contravar; [exact R0|]. rewrite <- (sqrt_pow2 r) by lra. apply sqrt_le_1_alt, R2.
Qed.
Lemma lens_bound a b p : 0 <= pz p <= h -> lens a b p <= / h.
Proof.
  intros P. pose proof (pow2_ge_0 (px p - a)). pose proof (pow2_ge_0 (py p - b)). pose proof (pow_incr h (2 * h - pz p) 2 ltac:(lra)).
  pose proof (lens_le a b p h P Hh ltac:(lra)). assert (HH : 0 < 4 * h ^ 2) by (pose proof (pow_lt h 2 Hh); lra).
  assert (0 <= pz p / (4 * h ^ 2)) by (unfold Rdiv; apply Rmult_le_pos; [lra|left; apply Rinv_0_lt_compat, HH]). lra.
Qed.
Lemma lens_far a b p : pz p = h -> 4 * h <= Rabs (px p - a) \/ 4 * h <= Rabs (py p - b) -> lens a b p <= 0.
Proof.
  intros E D. pose proof (pow2_ge_0 (2 * h - pz p)).
  assert (R2 : (4 * h) ^ 2 <= (px p - a) ^ 2 + (py p - b) ^ 2).
  { rewrite <- (pow2_abs (px p - a)), <- (pow2_abs (py p - b)). pose proof (pow2_ge_0 (Rabs (px p - a))). pose proof (pow2_ge_0 (Rabs (py p - b))).
    assert (F0 : 0 <= 4 * h) by lra. destruct D as [D|D]; pose proof (pow_incr (4 * h) _ 2 (conj F0 D)); lra. }
  pose proof (lens_le a b p (4 * h) ltac:(lra) ltac:(lra) ltac:(lra)) as L. rewrite E in L. replace (/ (4 * h) - h / (4 * h ^ 2)) with 0 in L by (field; lra). exact L.
Qed.
Lemma sum_lt M n p : (forall q, 0 < pz q -> pot 0 q < M) -> 0 < pz p <= h -> pot n p < M.
Proof.
  intros UP P. destruct (Req_dec (pz p) h) as [E|E]; [rewrite (top_on n p E); apply UP, top_above; lra|].
  set (a := px p). set (b := py p). set (H := h + 2 * INR n * h).
  assert (H0 : 0 < H) by (unfold H; pose proof (pos_INR n); pose proof (Rmult_le_pos _ _ H0 (Rlt_le _ _ Hh)); lra).
  destruct (box_positive (fun q => M - pot 0 (P3 (px q + a) (py q + b) H)) (4 * h) h) as (e & E0 & EB); [lra|lra| |].
  { intros q _. split; [|specialize (UP (P3 (px q + a) (py q + b) H) H0); lra].
    assert (C : cont (pot 0) (P3 (px q + a) (py q + b) H)) by (apply sum_cont0; cbn [pz]; lra).
    intros eps Ep. destruct (C eps Ep) as (d & D0 & D). exists d. split; [exact D0|]. intros r (c1 & c2 & c3).
    specialize (D (P3 (px r + a) (py r + b) H)). unfold close in D. cbn [px py pz] in D.
    replace (px r + a - (px q + a)) with (px r - px q) in D by ring. replace (py r + b - (py q + b)) with (py r - py q) in D by ring. rewrite Rminus_eq_0, Rabs_R0 in D. specialize (D (conj c1 (conj c2 D0))).
    rewrite Rabs_minus_sym in D. replace (M - pot 0 (P3 (px r + a) (py r + b) H) - (M - pot 0 (P3 (px q + a) (py q + b) H))) with (pot 0 (P3 (px q + a) (py q + b) H) - pot 0 (P3 (px r + a) (py r + b) H)) by ring. exact D. }
  set (k := e * h). assert (K0 : 0 < k) by (apply Rmult_lt_0_compat; assumption).
  assert (X : pot n p + (fun q => 0 + k * lens a b q) p <= M).
  { apply (sum_add M n (fun q => 0 + k * lens a b q) (k * / h)); [| | | | | |lra].
    - intros q Q. left. apply UP, Q.
    - intros q Q. apply (harmonic_lin (fun _ => 0)); [|apply lens_harmonic, Q]. apply (harmonic_ext (quad 0 0 0 0)); [intros r; unfold quad; ring|apply quad_harmonic].
    - intros q Q. apply (cont_lin (fun _ => 0)); [apply cont_const|apply lens_cont, Q].
    - intros q Q. rewrite lens_plane by exact Q. lra.
    - intros q Q. pose proof (UP (top n h q) (top_above n q ltac:(lra))) as U.
      destruct (Rle_or_lt (4 * h) (Rabs (px q - a))) as [A|A]; [pose proof (lens_far a b q Q (or_introl A)) as L; pose proof (Rmult_le_compat_l k _ _ (Rlt_le _ _ K0) L); lra|].
      destruct (Rle_or_lt (4 * h) (Rabs (py q - b))) as [B|B]; [pose proof (lens_far a b q Q (or_intror B)) as L; pose proof (Rmult_le_compat_l k _ _ (Rlt_le _ _ K0) L); lra|].
      apply Rabs_def2 in A. apply Rabs_def2 in B. specialize (EB (P3 (px q - a) (py q - b) 0)). unfold in_box in EB. cbn [px py pz] in EB. specialize (EB ltac:(lra)).
      replace (px q - a + a) with (px q) in EB by ring. replace (py q - b + b) with (py q) in EB by ring.
      assert (T : top n h q = P3 (px q) (py q) H) by (unfold top, H; rewrite Q; reflexivity). rewrite T.
      pose proof (Rmult_le_compat_l k _ _ (Rlt_le _ _ K0) (lens_bound a b q ltac:(lra))) as L. unfold k in L at 2. replace (e * h * / h) with e in L by (field; lra). lra.
    - intros q Q. pose proof (Rmult_le_compat_l k _ _ (Rlt_le _ _ K0) (lens_bound a b q ltac:(lra))). lra. }
  cbn beta in X. assert (L : 0 < lens a b p) by (destruct p as [x y z]; apply lens_column; cbn [pz] in *; lra).
  pose proof (Rmult_lt_0_compat _ _ K0 L). lra.
Qed.
End System.
