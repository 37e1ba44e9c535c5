(** Proof of C182, continued: systems of electrodes, and the potential below a cover. *)
From Coquelicot Require Import Coquelicot.
From Verif Require Import Base ModelExpr ModelUtils ModelField ModelGeom ModelOrient SpecTensor SpecField SpecPoly SpecMax SpecCentre SpecTile SpecEarnshaw SpecCover SpecDirichlet ProofField ProofDeriv ProofSys ProofPoly ProofPoly2 ProofPoly3 ProofMax3 ProofCentre ProofOrient ProofEarnshaw ProofCover ProofCover2 ProofCover3 ProofCover4 ProofDirichlet ProofDirichlet2 ProofCover5.
Import ListNotations.
Open Scope R_scope.
Notation length := List.length.

Lemma flat_below h area s : (forall e, In e s -> flat_area (egeom e) (area e)) -> below_cover h area s.
Proof. intros F e He. left. apply F, He. Qed.
Lemma images_entry h area s t n p : (forall e, In e s -> flat_area (egeom e) (area e)) ->
  tensor_entry (with_images n h s) t 0 [] p = sum_over s (fun e => voltage t e * covered (egeom e) n h p).
Proof.
  intros F. rewrite (system_entry h area); [|apply flat_below, F|left; auto]. apply ProofMax3.sum_ext. intros e He. rewrite (entry_0 _ (area e)) by (apply F, He). reflexivity.
Qed.
Lemma images_result h area s t n p : (forall e, In e s -> flat_area (egeom e) (area e)) ->
  electrical_potential (with_images n h s) [p] 0 t = Ok [[sum_over s (fun e => voltage t e * covered (egeom e) n h p)]].
Proof.
  intros F. rewrite <- (images_entry h area) by exact F.
  assert (W : forall e, In e (with_images n h s) -> well_formed (egeom e)) by (intros e; apply (part_wf h area); apply flat_below, F).
  rewrite (electrical_one _ t 0 p W). unfold tab. cbn [seq map Nat.mul Nat.add]. do 3 f_equal. rewrite low_entry; [reflexivity|exact W|left; auto].
Qed.
Lemma sum_opp s (c f : electrode -> R) : sum_over s (fun e => - c e * f e) = - sum_over s (fun e => c e * f e).
Proof. unfold sum_over. induction s as [|e l IH]; cbn [map sumR]; [ring|]. rewrite IH. ring. Qed.
Lemma images_range h area s t m M n p : 0 < h -> (forall e, In e s -> flat_area (egeom e) (area e)) ->
  (forall q, 0 < pz q -> exists v, electrical_potential (with_images 0 h s) [q] 0 t = Ok [[v]] /\ m <= v <= M) -> 0 < pz p <= h ->
  exists v, electrical_potential (with_images n h s) [p] 0 t = Ok [[v]] /\ m <= v <= M.
Proof.
  intros Hh F R P. eexists. split; [apply (images_result h area), F|].
  assert (R' : forall q, 0 < pz q -> m <= sum_over s (fun e => voltage t e * covered (egeom e) 0 h q) <= M).
  { intros q Q. destruct (R q Q) as (v & E & B). rewrite (images_result h area) in E by exact F. injection E as <-. exact B. }
  split.
  - apply Ropp_le_cancel. rewrite <- sum_opp. apply (sum_le h area (fun e => - voltage t e) s Hh F); [|exact P]. intros q Q. rewrite sum_opp. specialize (R' q Q). lra.
  - apply (sum_le h area (voltage t) s Hh F); [|exact P]. intros q Q. apply R', Q.
Qed.
Lemma images_below h area s t M n p : 0 < h -> (forall e, In e s -> flat_area (egeom e) (area e)) ->
  (forall q, 0 < pz q -> exists v, electrical_potential (with_images 0 h s) [q] 0 t = Ok [[v]] /\ v < M) -> 0 < pz p <= h ->
  exists v, electrical_potential (with_images n h s) [p] 0 t = Ok [[v]] /\ v < M.
Proof.
  intros Hh F R P. eexists. split; [apply (images_result h area), F|].
  apply (sum_lt h area (voltage t) s Hh F); [|exact P]. intros q Q. destruct (R q Q) as (v & E & B). rewrite (images_result h area) in E by exact F. injection E as <-. exact B.
Qed.
Lemma images_above h area s t m n p : 0 < h -> (forall e, In e s -> flat_area (egeom e) (area e)) ->
  (forall q, 0 < pz q -> exists v, electrical_potential (with_images 0 h s) [q] 0 t = Ok [[v]] /\ m < v) -> 0 < pz p <= h ->
  exists v, electrical_potential (with_images n h s) [p] 0 t = Ok [[v]] /\ m < v.
Proof.
  intros Hh F R P. eexists. split; [apply (images_result h area), F|].
  apply Ropp_lt_cancel. rewrite <- sum_opp. apply (sum_lt h area (fun e => - voltage t e) s Hh F); [|exact P]. intros q Q. rewrite sum_opp.
  destruct (R q Q) as (v & E & B). rewrite (images_result h area) in E by exact F. injection E as <-. lra.
Qed.

(** ** electrodes that do not overlap *)
Lemma covered_flat h area s parts : covered_system h area s parts -> (forall e, In e s -> egeom e <> ECover h) -> forall e, In e s -> flat_area (egeom e) (area e).
Proof. intros (B & _) N e He. destruct (B e He) as [F|[E _]]; [exact F|]. destruct (N e He E). Qed.
Lemma pieces_range l m M p : (forall v P, In (v, P) l -> convex P) -> ForallOrdPairs disjoint (map snd l) -> m <= 0 <= M -> (forall v P, In (v, P) l -> m <= v <= M) -> 0 < pz p ->
  m <= pieces l p <= M /\ (0 < M -> pieces l p < M) /\ (m < 0 -> m < pieces l p).
Proof.
  intros C D mM V Z. set (el := fun vP : R * list p2 => Electrode "" (fst vP) 0 (EPolygon [snd vP] 0 0)).
  set (parts := fun e => match egeom e with EPolygon ps _ _ => ps | _ => [] end).
  assert (FE : flat_map parts (map el l) = map snd l) by (clear; induction l as [|vP l IH]; [reflexivity|]; cbn [map flat_map]; rewrite IH; reflexivity).
  assert (T : tiled_system (map el l) parts).
  { split.
    - intros e He. apply in_map_iff in He. destruct He as ([v P] & <- & I). exists [P], 0. split; [reflexivity|]. apply convex_tiled, (C v P I).
    - rewrite FE. exact D. }
  assert (PE : pieces (at_voltages TDc parts (map el l)) p = pieces l p).
  { clear. f_equal. unfold at_voltages. induction l as [|[v P] l IH]; [reflexivity|]. cbn [map flat_map]. rewrite IH. reflexivity. }
  destruct p as [x y z]. cbn [pz] in Z.
  destruct (tiled_range (map el l) TDc parts x y z m M T Z mM) as (v & E & B).
  { intros e v He Ev. apply in_map_iff in He. destruct He as ([w P] & <- & I). cbn in Ev. injection Ev as <-. apply (V w P I). }
  rewrite (plain_result _ parts TDc _ (P3 x y z) T (plain_solves _ _ TDc T) Z) in E. injection E as E. rewrite (plain_entry _ parts TDc (P3 x y z) T Z) in E. rewrite PE in E. rewrite E. exact B.
Qed.
Lemma voltage_range t e m M : m <= 0 <= M -> (forall v, volt t e = Some v -> m <= v <= M) -> m <= voltage t e <= M.
Proof. intros mM V. unfold voltage. destruct (volt t e) as [v|]; [apply V; reflexivity|exact mM]. Qed.
Lemma covered_range h area s parts t m M n p : 0 < h -> covered_system h area s parts -> (forall e, In e s -> egeom e <> ECover h) -> m <= 0 <= M ->
  (forall e v, In e s -> volt t e = Some v -> m <= v <= M) -> 0 < pz p <= h ->
  exists v, electrical_potential (with_images n h s) [p] 0 t = Ok [[v]] /\ m <= v <= M /\ (0 < M -> v < M) /\ (m < 0 -> m < v).
Proof.
  intros Hh CS N mM V P. pose proof (covered_flat h area s parts CS N) as F. pose proof (covered_convex h area s parts CS) as C.
  assert (X : forall q, 0 < pz q -> m <= sum_over s (fun e => voltage t e * covered (egeom e) 0 h q) <= M /\
    (0 < M -> sum_over s (fun e => voltage t e * covered (egeom e) 0 h q) < M) /\ (m < 0 -> m < sum_over s (fun e => voltage t e * covered (egeom e) 0 h q))).
  { intros q Q. rewrite <- (images_entry h area s t 0 q F). rewrite (cover_entry_sum h area s parts t q Hh CS Q).
    assert (cover_voltage t s = 0) as ->.
    { unfold cover_voltage. destruct CS as (_ & G & _). clear -N G. unfold sum_over. induction s as [|e l IH]; [reflexivity|]. cbn [map sumR].
      rewrite IH; [|intros d D; apply G; right; exact D|intros d D; apply N; right; exact D].
      destruct (G e (or_introl eq_refl)) as [(paths & k & h' & -> & _)|[E _]]; [ring|destruct (N e (or_introl eq_refl) E)]. }
    rewrite Rmult_0_l, Rplus_0_r. apply pieces_range; [| |exact mM| |exact Q].
    - intros v Pc I. apply at_in in I. destruct I as (e & I & J & _). apply (C e Pc I J).
    - rewrite at_snd. apply CS.
    - intros v Pc I. apply at_in in I. destruct I as (e & I & J & ->). apply voltage_range; [exact mM|]. intros v. apply V, I. }
  eexists. split; [apply (images_result h area), F|]. split; [split|split].
  - apply Ropp_le_cancel. rewrite <- sum_opp. apply (sum_le h area (fun e => - voltage t e) s Hh F); [|exact P]. intros q Q. rewrite sum_opp. destruct (X q Q) as ((A & _) & _). lra.
  - apply (sum_le h area (voltage t) s Hh F); [|exact P]. intros q Q. apply (X q Q).
  - intros M0. apply (sum_lt h area (voltage t) s Hh F); [|exact P]. intros q Q. apply (X q Q), M0.
  - intros m0. apply Ropp_lt_cancel. rewrite <- sum_opp. apply (sum_lt h area (fun e => - voltage t e) s Hh F); [|exact P]. intros q Q. rewrite sum_opp. destruct (X q Q) as (_ & _ & A). specialize (A m0). lra.
Qed.

(** ** below a cover *)
Lemma under_max h area s parts t u c M : 0 < h -> covered_system h area s parts -> potential_under h s parts t u -> 0 <= M ->
  (forall e, In e s -> egeom e <> ECover h -> c * voltage t e <= M) -> c * cover_voltage t s <= M -> forall p, 0 < pz p < h -> c * u p <= M.
Proof.
  intros Hh CS (U1 & (BU & U2) & (U3 & U4) & U5) M0 V VC p P. pose proof (covered_convex h area s parts CS) as C.
  assert (CC : forall Q, In Q (flat_map parts s) -> convex Q) by (intros Q HQ; apply in_flat_map in HQ; destruct HQ as (e & He & HQ); exact (C e Q He HQ)).
  assert (TS : forall q a, c * a <= M -> tends h u q a -> sinks h (fun q => (0 + c * u q) + -1 * M) q).
  { intros q a A T eps E. destruct (tends_lin h (fun _ => 0) u q 0 a c (tends_const h 0 q) T eps E) as (d & D0 & D). exists d. split; [exact D0|]. intros r R (c1 & c2 & c3). specialize (D r R c1 c2 c3). apply Rabs_def2 in D. lra. }
  enough ((fun q => (0 + c * u q) + -1 * M) p <= 0) by (cbn beta in *; lra).
  apply (slab_lines (fun q => (0 + c * u q) + -1 * M) h (Rabs c * BU - M) (all_lines (flat_map parts s)) Hh); [apply all_unit, CC| | | | |exact P].
  - intros q Q. destruct (U1 q Q) as [A T]. split; [|apply (tends_lin h (fun q => 0 + c * u q) (fun _ => M)); [apply tends_lin; [apply tends_const|exact T]|apply tends_const]].
    assert (HC : forall k, harmonic_at (fun _ => k) q).
    { intros k. exists 0, 0, 0. split; [|split; [|split; [|ring]]]; exists (fun _ => 0); (split; [apply filter_forall; intros r; apply @is_derive_const|apply @is_derive_const]). }
    apply (harmonic_lin (fun q => 0 + c * u q) (fun _ => M)); [apply (harmonic_lin (fun _ => 0)); [apply HC|exact A]|apply HC].
  - intros q Q L. rewrite <- (on_xy q Q). destruct (off_cases _ q CC L) as [(R & I & J)|O].
    + apply in_flat_map in I. destruct I as (e & He & I). apply (TS _ (voltage t e)); [|apply (U3 e R); assumption].
      apply V; [exact He|]. intros E. destruct CS as (_ & G & _). destruct (G e He) as [(paths & k & h' & E' & _)|[_ E']]; [congruence|rewrite E' in I; destruct I].
    + apply (TS _ 0 ltac:(lra)). apply U4. intros e R He HR. apply O, in_flat_map. exists e. auto.
  - intros q Q. apply (TS _ (cover_voltage t s) VC). apply U5, Q.
  - intros q Q. specialize (U2 q Q). pose proof (Rle_abs (c * u q)) as X. rewrite Rabs_mult in X. pose proof (Rmult_le_compat_l _ _ _ (Rabs_pos c) U2). lra.
Qed.

(** ** one electrode *)
Definition own_area (g : geom) : R :=
  match g with
  | EPoint pixels _ _ => sum_over pixels (fun pa => Rabs (snd pa))
  | EPolygon paths _ _ => sum_over paths (fun P => Rabs (fst (area_centroid P)))
  | _ => 0
  end.
Lemma positive_images e paths k h' t v n h p : egeom e = EPolygon paths k h' -> paths <> [] -> (forall P, In P paths -> exists parts, outline P parts) ->
  (forall o, In o (orientations (egeom e)) -> o = 1%Z) -> volt t e = Some v -> 0 < v -> 0 < pz p <= h ->
  exists r, electrical_potential (with_images n h [e]) [p] 0 t = Ok [[r]] /\ 0 < r.
Proof.
  intros G N O S V Hv P. apply (images_above h (fun e => own_area (egeom e))); [lra| | |exact P].
  - intros e' [<-|[]]. rewrite G. cbn [flat_area own_area]. auto.
  - intros [x y z] Z. unfold with_images. cbn [map]. rewrite G. cbn [with_cover].
    apply (positive_electrode (Electrode (ename e) (edc e) (erf e) (EPolygon paths (Z.of_nat 0) h)) paths h t v); cbn [egeom]; try assumption; [reflexivity|].
    rewrite G in S. exact S.
Qed.
Lemma positive_pixels e pixels k h' t v n h p : egeom e = EPoint pixels k h' -> pixels <> [] -> (forall c a, In (c, a) pixels -> 0 < a) -> volt t e = Some v -> 0 < v -> 0 < pz p <= h ->
  exists r, electrical_potential (with_images n h [e]) [p] 0 t = Ok [[r]] /\ 0 < r.
Proof.
  intros G N A V Hv P.
  assert (F : forall e', In e' [e] -> flat_area (egeom e') (own_area (egeom e'))) by (intros e' [<-|[]]; rewrite G; reflexivity).
  apply (images_above h (fun e => own_area (egeom e))); [lra|exact F| |exact P].
  intros [x y z] Z. eexists. split; [apply (images_result h (fun e => own_area (egeom e))), F|]. unfold sum_over. cbn [map sumR]. rewrite Rplus_0_r.
  apply Rmult_lt_0_compat; [unfold voltage; rewrite V; exact Hv|]. unfold covered. rewrite G. cbn [with_cover]. apply points_positive; assumption.
Qed.
Lemma under_range h area s parts t u m M p : 0 < h -> covered_system h area s parts -> potential_under h s parts t u -> m <= 0 <= M ->
  (forall e, In e s -> egeom e <> ECover h -> m <= voltage t e <= M) -> m <= cover_voltage t s <= M -> 0 < pz p < h -> m <= u p <= M.
Proof.
  intros Hh CS U mM V C P. split.
  - enough (-1 * u p <= - m) by lra. apply (under_max h area s parts t u (-1) (- m)); try assumption; [lra| |lra]. intros e He Ne. specialize (V e He Ne). lra.
  - enough (1 * u p <= M) by lra. apply (under_max h area s parts t u 1 M); try assumption; [lra| |lra]. intros e He Ne. specialize (V e He Ne). lra.
Qed.
