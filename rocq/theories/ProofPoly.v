From Coquelicot Require Import Coquelicot.
From Coq Require Import Permutation.
From Verif Require Import Base ModelExpr ModelUtils ModelField ModelGeom SpecTensor SpecField SpecPoly
  ProofTensor ProofField ProofPixel ProofDeriv ProofSys ProofPseudo
  ProofEdgeG ProofEdgeP ProofEdgeT ProofEdgeT5 ProofEdgeS ProofEdgeR ProofEdge.
Open Scope R_scope.
Notation length := List.length.

Lemma value_unit g d i p : well_formed g -> value g d i p = unit_term g d i p.
Proof.
  intros W. unfold value.
  destruct (potential_spec g [p] d 1 (zeros d 1) W) as (out & E1 & [L F] & C).
  { split; [reflexivity|]. constructor; [apply repeat_length|constructor]. }
  change (potential g [p] d 1 None) with (potential g [p] d 1 (Some (zeros d 1))). rewrite E1.
  destruct out as [|r [|r' out]]; cbn in L; try lia.
  specialize (C 0%nat i ltac:(cbn; lia)). unfold cell, at_ in C. cbn [nth] in C. rewrite C.
  unfold zeros. cbn [repeat nth].
  replace (nth i (repeat 0 (2 * d + 1)) 0) with 0; [ring|].
  symmetry. apply nth_repeat.
Qed.

(** ** Derivatives of smooth systems *)
Lemma smooth_wf g p : smooth g p -> well_formed g.
Proof. destruct g; cbn; try tauto. Qed.
Lemma smooth_RD g p n : smooth g p -> (n <= 4)%nat -> RD (unit_term g) n p.
Proof.
  intros H Hn. destruct g as [pixels m h|paths m h|points edges pots m h|h|u]; cbn [smooth] in H; [| | | |tauto].
  - now apply RD_point.
  - apply RD_polygon; tauto.
  - apply RD_mesh; tauto.
  - now apply RD_cover.
Qed.
Lemma smooth_derivatives s t n p idx k : (forall e, In e s -> smooth (egeom e) p) ->
  (n <= 4)%nat -> (k < 3)%nat -> idx_of_order n idx ->
  returns_tensor s t n p /\ returns_tensor s t (S n) p /\
  partial (tensor_entry s t n idx) k p (tensor_entry s t (S n) (k :: idx) p).
Proof.
  intros H Hn Hk Hi.
  assert (W : wf s) by (intros e He; eapply smooth_wf; eauto).
  split; [apply returns_ok; auto; lia|]. split; [apply returns_ok; auto; lia|].
  apply system_derivatives; auto. intros e He. apply smooth_RD; auto.
Qed.
Lemma smooth_pseudo c s n p idx k : (forall e, In e s -> smooth (egeom e) p) ->
  (n <= 3)%nat -> (k < 3)%nat -> idx_of_order n idx ->
  (exists T, pseudo_potential (Some c) s p n = Ok T) /\
  (exists T, pseudo_potential (Some c) s p (S n) = Ok T) /\
  partial (pseudo_entry c s n idx) k p (pseudo_entry c s (S n) (k :: idx) p).
Proof.
  intros H Hn Hk Hi.
  assert (W : wf s) by (intros e He; eapply smooth_wf; eauto).
  split; [apply (pseudo_symmetric_ok c s p n W); lia|].
  split; [apply (pseudo_symmetric_ok c s p (S n) W); lia|].
  apply pseudo_derivatives; auto. intros m Hm e He. apply smooth_RD; auto.
Qed.
Lemma smooth_open g k p : smooth g p -> locally 0 (fun t => smooth g (move k t p)).
Proof.
  intros H.
  destruct g as [pixels m h|paths m h|points edges pots m h|h|u]; cbn [smooth] in *; [| | | |tauto].
  - now apply off_open.
  - destruct H as [W Ho]. apply filter_and; [now apply filter_forall|]. now apply off_open.
  - destruct H as (W & HC & Ho). apply filter_and; [now apply filter_forall|].
    apply filter_and; [now apply filter_forall|]. now apply off_open.
  - now apply filter_forall.
Qed.
Lemma smooth_harmonic s t n p idx : (forall e, In e s -> smooth (egeom e) p) ->
  (n <= 3)%nat -> idx_of_order n idx -> harmonic_at (tensor_entry s t n idx) p.
Proof.
  intros H Hn Hi. assert (W : wf s) by (intros e He; eapply smooth_wf; eauto).
  apply (harmonic_entry s t n p idx (fun q => forall e, In e s -> smooth (egeom e) q)); auto.
  - intros k. apply locally_forall_in. intros e He. apply smooth_open; auto.
  - intros q m Hq Hm e He. apply smooth_RD; auto.
Qed.
