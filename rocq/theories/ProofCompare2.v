(** Proof of C185, continued: with a cover. *)
From Coquelicot Require Import Coquelicot.
From Verif Require Import Base ModelExpr ModelUtils ModelField ModelGeom SpecTensor SpecField SpecPoly SpecMax SpecCentre SpecTile SpecEarnshaw SpecCover SpecDirichlet SpecCompare
  ProofField ProofDeriv ProofSys ProofPoly ProofPoly2 ProofPoly3 ProofMax3 ProofCentre ProofEarnshaw ProofCover ProofCover4 ProofCover5 ProofCover6 ProofDirichlet ProofDirichlet2 ProofCompare ProofFar.
Import ListNotations.
Open Scope R_scope.
Notation length := List.length.

(** the first layout and the negative of the second as one *)
Definition difference (t t' : vtyp) (s s' : list electrode) : list electrode :=
  map (fun e => Electrode (ename e) (voltage t e) 0 (egeom e)) s ++ map (fun e => Electrode (ename e) (- voltage t' e) 0 (egeom e)) s'.
Lemma difference_sum t t' s s' n h p :
  sum_over (difference t t' s s') (fun e => edc e * covered (egeom e) n h p) =
  sum_over s (fun e => voltage t e * covered (egeom e) n h p) - sum_over s' (fun e => voltage t' e * covered (egeom e) n h p).
Proof.
  unfold difference. rewrite sum_app'. unfold sum_over. rewrite !map_map. cbn [edc egeom].
  replace (sumR (map (fun e => - voltage t' e * covered (egeom e) n h p) s')) with (- sumR (map (fun e => voltage t' e * covered (egeom e) n h p) s')); [ring|].
  induction s' as [|e l IH]; cbn [map sumR]; [ring|]. rewrite <- IH. ring.
Qed.
Lemma difference_flat t t' s s' area area' : (forall e, In e s -> flat_area (egeom e) (area e)) -> (forall e, In e s' -> flat_area (egeom e) (area' e)) ->
  forall e, In e (difference t t' s s') -> flat_area (egeom e) (own_area (egeom e)).
Proof.
  assert (OWN : forall g a, flat_area g a -> flat_area g (own_area g)) by (intros [] a; cbn; tauto).
  intros F F' e He. apply in_app_or in He. destruct He as [He|He]; apply in_map_iff in He; destruct He as (x & <- & Hx); cbn [egeom]; [exact (OWN _ _ (F x Hx))|exact (OWN _ _ (F' x Hx))].
Qed.
Lemma images_monotone h area s t area' s' t' n p : 0 < h -> (forall e, In e s -> flat_area (egeom e) (area e)) -> (forall e, In e s' -> flat_area (egeom e) (area' e)) ->
  0 < pz p <= h ->
  exists v v', electrical_potential (with_images n h s) [p] 0 t = Ok [[v]] /\ electrical_potential (with_images n h s') [p] 0 t' = Ok [[v']] /\
  ((forall q, 0 < pz q -> exists v v', electrical_potential (with_images 0 h s) [q] 0 t = Ok [[v]] /\ electrical_potential (with_images 0 h s') [q] 0 t' = Ok [[v']] /\ v <= v') -> v <= v') /\
  ((forall q, 0 < pz q -> exists v v', electrical_potential (with_images 0 h s) [q] 0 t = Ok [[v]] /\ electrical_potential (with_images 0 h s') [q] 0 t' = Ok [[v']] /\ v < v') -> v < v').
Proof.
  intros Hh F F' P. pose proof (difference_flat t t' s s' area area' F F') as FD. do 2 eexists. split; [apply (images_result h area), F|]. split; [apply (images_result h area'), F'|].
  split; intros H.
  - apply Rminus_le. rewrite <- difference_sum. apply (sum_le h (fun e => own_area (egeom e)) edc _ Hh FD); [|exact P]. intros q Q. cbv beta. rewrite difference_sum.
    destruct (H q Q) as (v & v' & E & E' & L). rewrite (images_result h area) in E by exact F. rewrite (images_result h area') in E' by exact F'. injection E as <-. injection E' as <-. lra.
  - apply Rminus_lt. rewrite <- difference_sum. apply (sum_lt h (fun e => own_area (egeom e)) edc _ Hh FD); [|exact P]. intros q Q. cbv beta. rewrite difference_sum.
    destruct (H q Q) as (v & v' & E & E' & L). rewrite (images_result h area) in E by exact F. rewrite (images_result h area') in E' by exact F'. injection E as <-. injection E' as <-. lra.
Qed.
(** below a conducting cover *)
Lemma under_monotone h s parts t u s' parts' t' u' p : 0 < h -> (forall e P, In e s -> In P (parts e) -> convex P) -> (forall e P, In e s' -> In P (parts' e) -> convex P) ->
  potential_under h s parts t u -> potential_under h s' parts' t' u' -> nowhere_above s parts t s' parts' t' -> 0 < pz p < h ->
  u p + (cover_voltage t' s' - cover_voltage t s) * (pz p / h) <= u' p.
Proof.
  intros Hh C C' (U1 & (BU & U2) & (U3 & U4) & U5) (V1 & (BV & V2) & (V3 & V4) & V5) NA P.
  set (D := cover_voltage t' s' - cover_voltage t s). destruct (cover_between h Hh) as (W1 & _).
  assert (WT : forall q, tends h (fun r => pz r / h) q (pz q / h)) by (intros q; apply (tends_ext h (fun r => / h * pz r) _ _ (/ h * pz q)); [intros r; unfold Rdiv; ring|unfold Rdiv; ring|apply tends_pz]).
  set (ps := flat_map parts s). set (ps' := flat_map parts' s').
  assert (CC : forall Q, In Q ps -> convex Q) by (intros Q HQ; apply in_flat_map in HQ; destruct HQ as (e & He & HQ); exact (C e Q He HQ)).
  assert (CC' : forall Q, In Q ps' -> convex Q) by (intros Q HQ; apply in_flat_map in HQ; destruct HQ as (e & He & HQ); exact (C' e Q He HQ)).
  assert (TS : forall f q a, a <= 0 -> tends h f q a -> sinks h f q).
  { intros f q a Ha T eps E. destruct (T eps E) as (d & D0 & D1). exists d. split; [exact D0|]. intros r R (c1 & c2 & c3). specialize (D1 r R c1 c2 c3). apply Rabs_def2 in D1. lra. }
  enough ((fun q => (u q + -1 * u' q) + D * (pz q / h)) p <= 0) by (cbn beta in *; lra).
  apply (slab_lines (fun q => (u q + -1 * u' q) + D * (pz q / h)) h (BU + BV + Rabs D) (all_lines (ps ++ ps')) Hh); [| | | | |exact P].
  - apply all_unit. intros Q HQ. apply in_app_or in HQ. destruct HQ; auto.
  - intros q Q. destruct (U1 q Q) as [A T]. destruct (V1 q Q) as [A' T']. split; [apply harmonic_lin; [apply harmonic_lin; assumption|apply (W1 q Q)]|apply tends_lin; [apply tends_lin; assumption|apply WT]].
  - intros q Q L.
    assert (L1 : forall l, In l (all_lines ps) -> line l q <> 0) by (intros l Hl; apply L, lines_app; left; exact Hl).
    assert (L2 : forall l, In l (all_lines ps') -> line l q <> 0) by (intros l Hl; apply L, lines_app; right; exact Hl).
    assert (A : exists a, plane_voltage s parts t (px q, py q) a /\ tends h u (on (px q, py q)) a).
    { destruct (off_cases ps q CC L1) as [(R & I & J)|O].
      - apply in_flat_map in I. destruct I as (e & He & I). exists (voltage t e). split; [left; exists e, R; auto|apply (U3 e R); assumption].
      - assert (O' : forall e P, In e s -> In P (parts e) -> outside P (px q, py q)) by (intros e R He HR; apply O, in_flat_map; exists e; auto). exists 0. split; [right; auto|apply U4, O']. }
    assert (A' : exists a, plane_voltage s' parts' t' (px q, py q) a /\ tends h u' (on (px q, py q)) a).
    { destruct (off_cases ps' q CC' L2) as [(R & I & J)|O].
      - apply in_flat_map in I. destruct I as (e & He & I). exists (voltage t' e). split; [left; exists e, R; auto|apply (V3 e R); assumption].
      - assert (O' : forall e P, In e s' -> In P (parts' e) -> outside P (px q, py q)) by (intros e R He HR; apply O, in_flat_map; exists e; auto). exists 0. split; [right; auto|apply V4, O']. }
    destruct A as (a & PA & TA). destruct A' as (a' & PA' & TA'). pose proof (NA _ _ _ PA PA'). rewrite <- (on_xy q Q). apply (TS _ _ ((a + -1 * a') + D * (0 / h))); [unfold Rdiv; lra|apply tends_lin; [apply tends_lin; assumption|exact (WT (on (px q, py q)))]].
  - intros q Q. apply (TS _ _ ((cover_voltage t s + -1 * cover_voltage t' s') + D * (pz q / h))); [rewrite Q; unfold D; replace (h / h) with 1 by (field; lra); lra|]. apply tends_lin; [apply tends_lin; [apply U5, Q|apply V5, Q]|apply WT].
  - intros q Q. specialize (U2 q Q). specialize (V2 q Q). pose proof (Rle_abs (u q)). pose proof (Rle_abs (- u' q)) as X. rewrite Rabs_Ropp in X.
    assert (Z : 0 <= pz q / h <= 1). { split; [apply Rlt_le, Rdiv_lt_0_compat; lra|]. apply (Rmult_le_reg_r h); [lra|]. unfold Rdiv. rewrite Rmult_assoc, Rinv_l by lra. lra. }
    assert (Y : D * (pz q / h) <= Rabs D) by (pose proof (Rle_abs D); pose proof (Rabs_pos D); nra). lra.
Qed.
Lemma covered_monotone h area s parts t u area' s' parts' t' u' p : 0 < h -> covered_system h area s parts -> covered_system h area' s' parts' ->
  potential_under h s parts t u -> potential_under h s' parts' t' u' -> nowhere_above s parts t s' parts' t' -> 0 < pz p < h ->
  u p + (cover_voltage t' s' - cover_voltage t s) * (pz p / h) <= u' p.
Proof. intros Hh C C'. apply (under_monotone h); [exact Hh|apply (covered_convex h area s parts C)|apply (covered_convex h area' s' parts' C')]. Qed.
Lemma no_images h area s parts t q : (forall e, In e s -> flat_area (egeom e) (area e)) -> tiled_system s parts -> 0 < pz q ->
  electrical_potential (with_images 0 h s) [q] 0 t = electrical_potential s [q] 0 t.
Proof.
  intros F T Q. rewrite (images_result h area) by exact F. rewrite (system_sum s t q) by exact (tiled_geoms s parts T). do 3 f_equal.
  apply ProofMax3.sum_ext. intros e He. f_equal. destruct (proj1 T e He) as (paths & h' & E & W). unfold covered. rewrite E. cbn [with_cover Z.of_nat].
  rewrite (tiled_pieces _ _ h q W Q), (tiled_pieces _ _ h' q W Q). reflexivity.
Qed.
Lemma cover_monotone h area s parts t area' s' parts' t' n p : 0 < h -> (forall e, In e s -> flat_area (egeom e) (area e)) -> (forall e, In e s' -> flat_area (egeom e) (area' e)) ->
  tiled_system s parts -> tiled_system s' parts' -> nowhere_above s parts t s' parts' t' -> 0 < pz p <= h ->
  exists v v', electrical_potential (with_images n h s) [p] 0 t = Ok [[v]] /\ electrical_potential (with_images n h s') [p] 0 t' = Ok [[v']] /\ v <= v' /\
  (somewhere_below s parts t s' parts' t' -> v < v').
Proof.
  intros Hh F F' T T' NA P. destruct (images_monotone h area s t area' s' t' n p Hh F F' P) as (v & v' & E & E' & A & B). exists v, v'. split; [exact E|]. split; [exact E'|].
  split; [apply A|intros SB; apply B]; intros q Q; rewrite (no_images h area s parts), (no_images h area' s' parts') by assumption;
    destruct (monotone s parts t s' parts' t' q T T' NA Q) as (w & w' & G & G' & L & M); exists w, w'; auto.
Qed.
