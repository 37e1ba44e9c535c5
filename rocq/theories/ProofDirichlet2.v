(** Proof of C178, continued: the potential of the program has these values on
    the plane. *)
From Coquelicot Require Import Coquelicot.
From Verif Require Import Base ModelExpr ModelUtils ModelField ModelGeom SpecTensor SpecField SpecPoly SpecBound SpecMax SpecCentre SpecTile SpecEarnshaw SpecCover SpecDirichlet ProofField ProofDeriv ProofSys ProofPoly ProofPoly2 ProofBound ProofMax2 ProofMax3 ProofMax6 ProofCentre ProofOrient ProofEarnshaw ProofCover ProofCover2 ProofCover3 ProofCover4 ProofDirichlet.
Import ListNotations.
Open Scope R_scope.
Notation length := List.length.

(** ** limits from above *)
Lemma approaches_lin f g p a b c : approaches f p a -> approaches g p b -> approaches (fun q => f q + c * g q) p (a + c * b).
Proof.
  intros F G eps E. pose proof (Rabs_pos c) as C0.
  destruct (F (eps / 2) ltac:(lra)) as (d1 & D1 & H1). destruct (G (eps / (2 * (Rabs c + 1))) ltac:(apply Rdiv_lt_0_compat; lra)) as (d2 & D2 & H2).
  exists (Rmin d1 d2). split; [apply Rmin_glb_lt; assumption|]. intros q Q c1 c2 c3. pose proof (Rmin_l d1 d2). pose proof (Rmin_r d1 d2).
  specialize (H1 q Q ltac:(lra) ltac:(lra) ltac:(lra)). specialize (H2 q Q ltac:(lra) ltac:(lra) ltac:(lra)).
  replace (f q + c * g q - (a + c * b)) with ((f q - a) + c * (g q - b)) by ring. eapply Rle_lt_trans; [apply Rabs_triang|]. rewrite Rabs_mult.
  set (e := eps / (2 * (Rabs c + 1))) in *. assert (EE : (Rabs c + 1) * e = eps / 2) by (unfold e; field; lra). assert (e0 : 0 < e) by (unfold e; apply Rdiv_lt_0_compat; lra).
  assert (Rabs c * Rabs (g q - b) <= Rabs c * e) by (apply Rmult_le_compat_l; lra). lra.
Qed.
Lemma approaches_ext f g p a b : (forall q, 0 < pz q -> f q = g q) -> a = b -> approaches f p a -> approaches g p b.
Proof. intros E <- H eps e. destruct (H eps e) as (d & D0 & D). exists d. split; [exact D0|]. intros q Q c1 c2 c3. rewrite <- E by exact Q. apply D; assumption. Qed.
Lemma approaches_const c p : approaches (fun _ => c) p c.
Proof. intros eps E. exists 1. split; [lra|]. intros q _ _ _ _. rewrite Rminus_eq_0, Rabs_R0. exact E. Qed.
Lemma cont_approaches f p : cont f p -> approaches f p (f p).
Proof. intros F eps E. destruct (F eps E) as (d & D0 & D). exists d. split; [exact D0|]. intros q _ c1 c2 c3. apply D. exact (conj c1 (conj c2 c3)). Qed.

(** ** sides *)
Definition side_line (e : p2 * p2) : R * R * R :=
  let dx := fst (snd e) - fst (fst e) in let dy := snd (snd e) - snd (fst e) in let l := sqrt (dx ^ 2 + dy ^ 2) in
  ((- dy / l, dx / l), (dy * fst (fst e) - dx * snd (fst e)) / l).
Lemma side_length (e : p2 * p2) : fst e <> snd e -> 0 < sqrt ((fst (snd e) - fst (fst e)) ^ 2 + (snd (snd e) - snd (fst e)) ^ 2).
Proof.
  intros N. apply sqrt_lt_R0. destruct e as [[a b] [c d]]. cbn [fst snd] in *. pose proof (pow2_ge_0 (c - a)). pose proof (pow2_ge_0 (d - b)).
  destruct (Req_dec c a) as [->|X]; [|pose proof (pow2_gt_0 (c - a) ltac:(lra)); lra]. destruct (Req_dec d b) as [->|Y]; [contradiction|]. pose proof (pow2_gt_0 (d - b) ltac:(lra)). lra.
Qed.
Lemma side_unit e : fst e <> snd e -> unit_line (side_line e).
Proof.
  intros N. unfold unit_line, side_line. cbn [fst snd]. set (dx := fst (snd e) - fst (fst e)). set (dy := snd (snd e) - snd (fst e)).
  pose proof (side_length e N) as L. fold dx dy in L. set (l := sqrt (dx ^ 2 + dy ^ 2)) in *.
  assert (Q : l ^ 2 = dx ^ 2 + dy ^ 2). { unfold l. rewrite <- Rsqr_pow2. apply Rsqr_sqrt. pose proof (pow2_ge_0 dx). pose proof (pow2_ge_0 dy). lra. }
  replace ((- dy / l) ^ 2 + (dx / l) ^ 2) with ((dx ^ 2 + dy ^ 2) / l ^ 2) by (field; lra). rewrite <- Q. field. lra.
Qed.
Lemma side_zero e p : fst e <> snd e -> line (side_line e) p <> 0 -> left_of (fst e) (snd e) (px p, py p) <> 0.
Proof.
  intros N H Z. apply H. unfold line, side_line, off_line. cbn [fst snd]. pose proof (side_length e N) as L. set (l := sqrt _) in *.
  unfold left_of in Z. cbn [fst snd] in Z. apply Rmult_eq_reg_r with l; [|lra]. rewrite Rmult_0_l. rewrite <- Z. field. lra.
Qed.
Lemma convex_side P e : convex P -> In e (edges_of P) -> fst e <> snd e.
Proof.
  intros (ND & L & K) I E. assert (A : forall v, In v P -> v = fst e).
  { intros v V. destruct (K e v I V) as [->|[->|G]]; [reflexivity|symmetry; exact E|]. exfalso. rewrite <- E in G. unfold left_of in G. lra. }
  destruct P as [|a [|b P]]; cbn in L; try lia. inversion ND as [|? ? N _]. apply N. left. rewrite (A a), (A b) by (cbn; auto). reflexivity.
Qed.
(** ** uniqueness *)
Definition all_lines (Ps : list (list p2)) : list (R * R * R) := map side_line (flat_map edges_of Ps).
Lemma all_unit Ps : (forall P, In P Ps -> convex P) -> forall l, In l (all_lines Ps) -> unit_line l.
Proof.
  intros C l I. apply in_map_iff in I. destruct I as (e & <- & I). apply in_flat_map in I. destruct I as (P & HP & He). apply side_unit. apply (convex_side P); auto.
Qed.
Lemma off_cases Ps p : (forall P, In P Ps -> convex P) -> (forall l, In l (all_lines Ps) -> line l p <> 0) ->
  (exists P, In P Ps /\ interior P (px p, py p)) \/ (forall P, In P Ps -> outside P (px p, py p)).
Proof.
  intros C H. set (q := (px p, py p)).
  assert (Z : forall P e, In P Ps -> In e (edges_of P) -> left_of (fst e) (snd e) q <> 0).
  { intros P e HP He. apply (side_zero e p); [apply (convex_side P); auto|]. apply H. apply in_map, in_flat_map. exists P. auto. }
  clear H C. induction Ps as [|P Ps IH]; [right; intros P []|].
  destruct IH as [(P' & I & J)|IH]; [intros Q e HQ; apply Z; right; exact HQ|left; exists P'; split; [right; exact I|exact J]|].
  assert (X : forall es, (forall e, In e es -> left_of (fst e) (snd e) q <> 0) ->
     (forall e, In e es -> 0 < left_of (fst e) (snd e) q) \/ exists e, In e es /\ left_of (fst e) (snd e) q < 0).
  { induction es as [|e es IHe]; intros N; [left; intros e []|]. destruct (Rtotal_order (left_of (fst e) (snd e) q) 0) as [A|[A|A]].
    - right. exists e. split; [left; reflexivity|exact A].
    - exfalso. apply (N e (or_introl eq_refl) A).
    - destruct IHe as [B|(e' & I & B)]; [intros e' I; apply N; right; exact I|left; intros e' [<-|I]; [exact A|apply B, I]|right; exists e'; split; [right; exact I|exact B]]. }
  destruct (X (edges_of P) (fun e => Z P e (or_introl eq_refl))) as [A|(e & I & A)].
  - left. exists P. split; [left; reflexivity|exact A].
  - right. intros Q [<-|HQ]; [exists e; auto|apply IH, HQ].
Qed.
Lemma on_xy p : pz p = 0 -> on (px p, py p) = p.
Proof. destruct p as [x y z]. cbn. intros ->. reflexivity. Qed.
Lemma above_le s parts t u v : (forall e P, In e s -> In P (parts e) -> convex P) -> potential_above s parts t u -> potential_above s parts t v ->
  forall p, 0 < pz p -> u p <= v p.
Proof.
  intros C (U1 & (BU & U2) & U3 & U4) (V1 & (BV & V2) & V3 & V4) p P.
  assert (CC : forall Q, In Q (flat_map parts s) -> convex Q) by (intros Q HQ; apply in_flat_map in HQ; destruct HQ as (e & He & HQ); exact (C e Q He HQ)).
  enough ((fun q => u q + -1 * v q) p <= 0) by (cbn beta in *; lra).
  apply (above_lines (fun q => u q + -1 * v q) (BU + BV) (all_lines (flat_map parts s))); [apply all_unit, CC| | | |exact P].
  - intros q Q. destruct (U1 q Q) as [A T]. destruct (V1 q Q) as [A' T']. split; [apply harmonic_lin; assumption|apply approaches_lin; assumption].
  - intros q Q L. rewrite <- (on_xy q Q). destruct (off_cases _ q CC L) as [(R & I & J)|O].
    + apply in_flat_map in I. destruct I as (e & He & I). apply (approaches_ext (fun q => u q + -1 * v q) _ _ (voltage t e + -1 * voltage t e)); [reflexivity|ring|].
      apply approaches_lin; [apply (U3 e R)|apply (V3 e R)]; assumption.
    + assert (O' : forall e P, In e s -> In P (parts e) -> outside P (px q, py q)) by (intros e R He HR; apply O, in_flat_map; exists e; auto).
      apply (approaches_ext (fun q => u q + -1 * v q) _ _ (0 + -1 * 0)); [reflexivity|ring|]. apply approaches_lin; [apply U4, O'|apply V4, O'].
  - intros q Q. specialize (U2 q Q). specialize (V2 q Q). pose proof (Rle_abs (u q)). pose proof (Rle_abs (- v q)) as X. rewrite Rabs_Ropp in X. lra.
Qed.
Lemma under_le h s parts t u v : 0 < h -> (forall e P, In e s -> In P (parts e) -> convex P) -> potential_under h s parts t u -> potential_under h s parts t v ->
  forall p, 0 < pz p < h -> u p <= v p.
Proof.
  intros Hh C (U1 & (BU & U2) & (U3 & U4) & U5) (V1 & (BV & V2) & (V3 & V4) & V5) p P.
  assert (CC : forall Q, In Q (flat_map parts s) -> convex Q) by (intros Q HQ; apply in_flat_map in HQ; destruct HQ as (e & He & HQ); exact (C e Q He HQ)).
  assert (TS : forall f q, tends h f q 0 -> sinks h f q).
  { intros f q T eps E. destruct (T eps E) as (d & D0 & D). exists d. split; [exact D0|]. intros r R (c1 & c2 & c3). specialize (D r R c1 c2 c3). apply Rabs_def2 in D. lra. }
  enough ((fun q => u q + -1 * v q) p <= 0) by (cbn beta in *; lra).
  apply (slab_lines (fun q => u q + -1 * v q) h (BU + BV) (all_lines (flat_map parts s)) Hh); [apply all_unit, CC| | | | |exact P].
  - intros q Q. destruct (U1 q Q) as [A T]. destruct (V1 q Q) as [A' T']. split; [apply harmonic_lin; assumption|apply tends_lin; assumption].
  - intros q Q L. apply TS. rewrite <- (on_xy q Q). destruct (off_cases _ q CC L) as [(R & I & J)|O].
    + apply in_flat_map in I. destruct I as (e & He & I). apply (tends_ext h (fun q => u q + -1 * v q) _ _ (voltage t e + -1 * voltage t e)); [reflexivity|ring|].
      apply tends_lin; [apply (U3 e R)|apply (V3 e R)]; assumption.
    + assert (O' : forall e P, In e s -> In P (parts e) -> outside P (px q, py q)) by (intros e R He HR; apply O, in_flat_map; exists e; auto).
      apply (tends_ext h (fun q => u q + -1 * v q) _ _ (0 + -1 * 0)); [reflexivity|ring|]. apply tends_lin; [apply U4, O'|apply V4, O'].
  - intros q Q. apply TS. apply (tends_ext h (fun q => u q + -1 * v q) _ _ (cover_voltage t s + -1 * cover_voltage t s)); [reflexivity|ring|]. apply tends_lin; [apply U5, Q|apply V5, Q].
  - intros q Q. specialize (U2 q Q). specialize (V2 q Q). pose proof (Rle_abs (u q)). pose proof (Rle_abs (- v q)) as X. rewrite Rabs_Ropp in X. lra.
Qed.

(** ** one convex piece *)
Definition piece (P : list p2) (p : p3) : R := value (EPolygon [P] 0 0) 0 0 p.
Definition tri0 (r : R) : list p2 := [(- r, - r); (2 * r, - r); (- r, 2 * r)].
Definition tri (c : p2) (r : R) : list p2 := map (shift2 (fst c) (snd c)) (tri0 r).
Lemma tri_in c r q : interior (tri c r) q <-> fst c - r < fst q /\ snd c - r < snd q /\ (fst q - fst c) + (snd q - snd c) < r \/ r <= 0 /\ interior (tri c r) q.
Proof.
  split.
  - intros I. destruct (Rle_or_lt r 0) as [R|R]; [right; auto|left].
    pose proof (I (shift2 (fst c) (snd c) (- r, 2 * r), shift2 (fst c) (snd c) (- r, - r)) ltac:(cbn; auto)) as A.
    pose proof (I (shift2 (fst c) (snd c) (- r, - r), shift2 (fst c) (snd c) (2 * r, - r)) ltac:(cbn; auto)) as B.
    pose proof (I (shift2 (fst c) (snd c) (2 * r, - r), shift2 (fst c) (snd c) (- r, 2 * r)) ltac:(cbn; auto)) as D.
    unfold left_of, shift2 in A, B, D. cbn [fst snd] in A, B, D. split; [|split]; apply Rmult_lt_reg_l with (3 * r); lra.
  - intros [(A & B & D)|[_ I]]; [|exact I]. assert (R : 0 < r) by lra. intros e He. cbn in He.
    destruct He as [<-|[<-|[<-|[]]]]; unfold left_of, shift2; cbn [fst snd];
      (eapply Rlt_le_trans; [|apply Req_le; reflexivity]).
    + replace (_ - _) with (3 * r * (fst q - (fst c - r))) by ring. apply Rmult_lt_0_compat; lra.
    + replace (_ - _) with (3 * r * (snd q - (snd c - r))) by ring. apply Rmult_lt_0_compat; lra.
    + replace (_ - _) with (3 * r * (r - ((fst q - fst c) + (snd q - snd c)))) by ring. apply Rmult_lt_0_compat; lra.
Qed.
Lemma tri_convex c r : 0 < r -> convex (tri c r).
Proof.
  intros R. unfold tri, tri0. cbn [map]. unfold shift2. cbn [fst snd]. split; [|split; [cbn; lia|]].
  - repeat constructor; cbn; intros H; repeat destruct H as [H|H]; try contradiction; injection H; intros; lra.
  - assert (R2 : 0 < r * r) by (apply Rmult_lt_0_compat; assumption).
    intros e v He Hv. cbn in He, Hv.
    repeat destruct He as [He|He]; try contradiction; subst e; repeat destruct Hv as [Hv|Hv]; try contradiction; subst v; cbn [fst snd];
    first [left; reflexivity|right; left; reflexivity|right; right; unfold left_of; cbn [fst snd]; lra].
Qed.
Lemma tri_near c r q : 0 < r -> interior (tri c r) q -> Rabs (fst q - fst c) < 2 * r /\ Rabs (snd q - snd c) < 2 * r.
Proof. intros R I. apply tri_in in I. destruct I as [(A & B & D)|[Z _]]; [|lra]. split; apply Rabs_def1; lra. Qed.
Lemma tri_value c r z : piece (tri c r) (P3 (fst c) (snd c) z) = piece (tri0 r) (P3 0 0 z).
Proof.
  unfold piece. rewrite <- (value_shift (fst c) (snd c) (EPolygon [tri0 r] 0 0) 0 0 (P3 0 0 z)); [|exact Logic.I|intros [H|[]]; discriminate].
  unfold shift_geom, on_plane, shift_pt. cbn [px py pz map]. rewrite !Rplus_0_l. reflexivity.
Qed.
Lemma tri_limit r eps : 0 < r -> 0 < eps -> exists d, 0 < d /\ forall c z, 0 < z < d -> 1 - eps < piece (tri c r) (P3 (fst c) (snd c) z).
Proof.
  intros R E.
  assert (A : 0 < signed_area (tri0 r)).
  { unfold tri0, signed_area, edges_of, sum_over, cross2. cbn [combine last removelast map fst snd sumR]. assert (0 < r * r) by (apply Rmult_lt_0_compat; assumption). lra. }
  assert (I : inside3 (- r, - r) (2 * r, - r) (- r, 2 * r) (0, 0)) by (exists (/ 3), (/ 3), (/ 3); cbn [fst snd]; lra).
  destruct (small_limit _ _ eps (triangle_inside _ _ _ (0, 0) 0 0 A I (or_intror eq_refl)) E) as (d & D0 & D).
  exists d. split; [exact D0|]. intros c z Z. rewrite tri_value. specialize (D z Z). apply Rabs_def2 in D. cbn [fst snd] in D. unfold piece, tri0. change (Z.of_nat 0) with 0%Z in D. assert (X : forall v, v - 1 < eps /\ - eps < v - 1 -> 1 - eps < v) by (intros; lra). exact (X _ D).
Qed.
Lemma piece_01 P p : convex P -> 0 < pz p -> 0 < piece P p < 1.
Proof. intros C Z. destruct p as [x y z]. apply one_between; assumption. Qed.
Lemma left_near a b q eps : 0 < eps -> exists r, 0 < r /\ forall c, Rabs (fst c - fst q) < r -> Rabs (snd c - snd q) < r -> Rabs (left_of a b c - left_of a b q) < eps.
Proof.
  intros E. set (k := Rabs (fst b - fst a) + Rabs (snd b - snd a) + 1). pose proof (Rabs_pos (fst b - fst a)) as A. pose proof (Rabs_pos (snd b - snd a)) as B.
  assert (k0 : 0 < k) by (unfold k; lra). exists (eps / k). split; [apply Rdiv_lt_0_compat; assumption|]. intros c X Y.
  unfold left_of. replace (_ - _ - _) with ((fst b - fst a) * (snd c - snd q) + - ((snd b - snd a) * (fst c - fst q))) by ring.
  eapply Rle_lt_trans; [apply Rabs_triang|]. rewrite Rabs_Ropp, !Rabs_mult. set (r := eps / k) in *. assert (r0 : 0 < r) by (unfold r; apply Rdiv_lt_0_compat; assumption).
  assert (KR : k * r = eps) by (unfold r; field; lra).
  assert (Rabs (fst b - fst a) * Rabs (snd c - snd q) <= Rabs (fst b - fst a) * r) by (apply Rmult_le_compat_l; lra).
  assert (Rabs (snd b - snd a) * Rabs (fst c - fst q) <= Rabs (snd b - snd a) * r) by (apply Rmult_le_compat_l; lra).
  unfold k in KR. lra.
Qed.
Lemma interior_open P q : interior P q -> exists r, 0 < r /\ forall c, Rabs (fst c - fst q) < r -> Rabs (snd c - snd q) < r -> interior P c.
Proof.
  unfold interior. induction (edges_of P) as [|e es IH]; intros I.
  - exists 1. split; [lra|]. intros c _ _ e [].
  - destruct IH as (r & R & H); [intros f F; apply I; right; exact F|]. pose proof (I e (or_introl eq_refl)) as L.
    destruct (left_near (fst e) (snd e) q _ L) as (r' & R' & H'). exists (Rmin r r'). split; [apply Rmin_glb_lt; assumption|].
    pose proof (Rmin_l r r'). pose proof (Rmin_r r r'). intros c X Y f [<-|F]; [|apply H; try assumption; lra].
    specialize (H' c ltac:(lra) ltac:(lra)). apply Rabs_def2 in H'. lra.
Qed.
Lemma outside_open P q : outside P q -> exists r, 0 < r /\ forall c, Rabs (fst c - fst q) < r -> Rabs (snd c - snd q) < r -> ~ interior P c.
Proof.
  intros (e & He & L). destruct (left_near (fst e) (snd e) q (- left_of (fst e) (snd e) q) ltac:(lra)) as (r & R & H). exists r. split; [exact R|].
  intros c X Y I. specialize (I e He). specialize (H c X Y). apply Rabs_def2 in H. lra.
Qed.
Lemma piece_inside P q : convex P -> interior P q -> approaches (piece P) (on q) 1.
Proof.
  intros C I eps E. destruct (interior_open P q I) as (r & R & H). destruct (tri_limit (r / 4) eps ltac:(lra) E) as (d & D0 & D).
  exists (Rmin (r / 2) d). split; [apply Rmin_glb_lt; lra|]. pose proof (Rmin_l (r / 2) d). pose proof (Rmin_r (r / 2) d). intros p Z c1 c2 c3. cbn [on px py pz] in c1, c2, c3.
  pose proof (piece_01 P p C Z) as B. rewrite Rminus_0_r in c3. apply Rabs_def2 in c3.
  assert (L : piece (tri (px p, py p) (r / 4)) (P3 (px p) (py p) (pz p)) <= piece P (P3 (px p) (py p) (pz p))).
  { apply parts_le; [intros T [<-|[]]; apply tri_convex; lra|constructor; [constructor|constructor]|exact C| |exact Z].
    intros T c [<-|[]] J. apply tri_near in J; [|lra]. cbn [fst snd] in J. destruct J as [J1 J2]. apply H.
    - replace (fst c - fst q) with ((fst c - px p) + (px p - fst q)) by ring. eapply Rle_lt_trans; [apply Rabs_triang|]. lra.
    - replace (snd c - snd q) with ((snd c - py p) + (py p - snd q)) by ring. eapply Rle_lt_trans; [apply Rabs_triang|]. lra. }
  specialize (D (px p, py p) (pz p) ltac:(lra)). cbn [fst snd] in D. destruct p as [x y z]. cbn [px py pz] in *. apply Rabs_def1; lra.
Qed.
Lemma piece_split P Q p : convex P -> convex Q -> disjoint P Q -> 0 < pz p -> piece P p + piece Q p < 1.
Proof.
  intros CP CQ D Z. destruct p as [x y z]. cbn [pz] in Z.
  assert (B : 0 < value (EPolygon [P; Q] 0 0) 0 0 (P3 x y z) < 1).
  { apply disjoint_between; [intros R [<-|[<-|[]]]; assumption| |discriminate|exact Z]. constructor; [constructor; [exact D|constructor]|constructor; [constructor|constructor]]. }
  unfold piece. rewrite (polygon_turn [P]) by (try exact Z; intros [H|[]]; apply (cv_ne P CP H)). rewrite (polygon_turn [Q]) by (try exact Z; intros [H|[]]; apply (cv_ne Q CQ H)).
  rewrite polygon_turn in B; [|exact Z|intros [H|[H|[]]]; [apply (cv_ne P CP H)|apply (cv_ne Q CQ H)]].
  unfold sum_over in *. cbn [map sumR] in *. unfold Rdiv in *. rewrite <- Rmult_plus_distr_r. rewrite !Rplus_0_r in *. exact (proj2 B).
Qed.
Lemma piece_away P q : convex P -> (exists r, 0 < r /\ forall c, Rabs (fst c - fst q) < r -> Rabs (snd c - snd q) < r -> ~ interior P c) -> approaches (piece P) (on q) 0.
Proof.
  intros C (r & R & H) eps E. destruct (tri_limit (r / 4) eps ltac:(lra) E) as (d & D0 & D).
  exists (Rmin (r / 2) d). split; [apply Rmin_glb_lt; lra|]. pose proof (Rmin_l (r / 2) d). pose proof (Rmin_r (r / 2) d). intros p Z c1 c2 c3. cbn [on px py pz] in c1, c2, c3.
  pose proof (piece_01 P p C Z) as B. rewrite Rminus_0_r in c3. apply Rabs_def2 in c3.
  assert (L : piece P (P3 (px p) (py p) (pz p)) + piece (tri (px p, py p) (r / 4)) (P3 (px p) (py p) (pz p)) < 1).
  { apply piece_split; [exact C|apply tri_convex; lra| |exact Z]. intros c J1 J. apply tri_near in J; [|lra]. cbn [fst snd] in J. destruct J as [J2 J3]. apply (H c); [| |exact J1].
    - replace (fst c - fst q) with ((fst c - px p) + (px p - fst q)) by ring. eapply Rle_lt_trans; [apply Rabs_triang|]. lra.
    - replace (snd c - snd q) with ((snd c - py p) + (py p - snd q)) by ring. eapply Rle_lt_trans; [apply Rabs_triang|]. lra. }
  specialize (D (px p, py p) (pz p) ltac:(lra)). cbn [fst snd] in D. destruct p as [x y z]. cbn [px py pz] in *. apply Rabs_def1; lra.
Qed.
Lemma piece_cont P p : convex P -> 0 < pz p -> approaches (piece P) p (piece P p).
Proof.
  intros C Z. apply cont_approaches. apply (bare_cont (EPolygon [P] 0 0) (Rabs (fst (area_centroid P)))); [|lra].
  split; [intros Q [<-|[]]; exists [P]; left; apply convex_tiled, C|]. unfold sum_over. cbn [map sumR]. ring.
Qed.

(** ** pieces at voltages *)
Definition pieces (l : list (R * list p2)) (p : p3) : R := sum_over l (fun vP => fst vP * piece (snd vP) p).
Lemma pieces_cons v P l p : pieces ((v, P) :: l) p = v * piece P p + pieces l p.
Proof. reflexivity. Qed.
Lemma pieces_app a b p : pieces (a ++ b) p = pieces a p + pieces b p.
Proof. unfold pieces, sum_over. rewrite map_app. induction a as [|x a IH]; cbn [map app sumR]; [ring|]. rewrite IH. ring. Qed.
Lemma pieces_zero l q : (forall v P, In (v, P) l -> approaches (piece P) (on q) 0) -> approaches (pieces l) (on q) 0.
Proof.
  induction l as [|[v P] l IH]; intros H; [apply (approaches_const 0)|].
  apply (approaches_ext (fun p => pieces l p + v * piece P p) _ _ (0 + v * 0)); [intros p _; rewrite pieces_cons; ring|ring|].
  apply approaches_lin; [apply IH; intros v' P' I; apply (H v' P'); right; exact I|apply (H v P); left; reflexivity].
Qed.
Lemma pieces_cont l p : (forall v P, In (v, P) l -> convex P) -> 0 < pz p -> approaches (pieces l) p (pieces l p).
Proof.
  intros C Z. induction l as [|[v P] l IH]; [apply (approaches_const 0)|].
  apply (approaches_ext (fun p => pieces l p + v * piece P p) _ _ (pieces l p + v * piece P p)); [intros q _; rewrite pieces_cons; ring|rewrite pieces_cons; ring|].
  apply approaches_lin; [apply IH; intros v' P' I; apply (C v' P'); right; exact I|apply piece_cont; [apply (C v P); left; reflexivity|exact Z]].
Qed.
Lemma pieces_bound l p : (forall v P, In (v, P) l -> convex P) -> 0 < pz p -> Rabs (pieces l p) <= sum_over l (fun vP => Rabs (fst vP)).
Proof.
  intros C Z. induction l as [|[v P] l IH]; [unfold pieces, sum_over; cbn; rewrite Rabs_R0; lra|]. rewrite pieces_cons. unfold sum_over. cbn [map sumR fst].
  eapply Rle_trans; [apply Rabs_triang|]. apply Rplus_le_compat; [|apply IH; intros v' P' I; apply (C v' P'); right; exact I].
  pose proof (piece_01 P p (C v P (or_introl eq_refl)) Z) as B. rewrite Rabs_mult, (Rabs_right (piece P p)) by lra. rewrite <- (Rmult_1_r (Rabs v)) at 2. apply Rmult_le_compat_l; [apply Rabs_pos|lra].
Qed.
Lemma fop_split {A} (R : A -> A -> Prop) a x b : ForallOrdPairs R (a ++ x :: b) -> (forall y, In y a -> R y x) /\ (forall y, In y b -> R x y).
Proof.
  induction a as [|z a IH]; cbn [app]; intros H; inversion H as [|? ? F G]; subst.
  - split; [intros y []|]. intros y. apply Forall_forall. exact F.
  - destruct (IH G) as [I1 I2]. split; [|exact I2]. intros y [<-|I]; [|apply I1, I]. rewrite Forall_forall in F. apply F. apply in_or_app. right. left. reflexivity.
Qed.
Lemma pieces_inside l v P q : (forall v P, In (v, P) l -> convex P) -> ForallOrdPairs disjoint (map snd l) -> In (v, P) l -> interior P q -> approaches (pieces l) (on q) v.
Proof.
  intros C D I J. destruct (in_split _ _ I) as (a & b & ->). rewrite map_app in D. cbn [map snd] in D. destruct (fop_split _ _ _ _ D) as [Da Db].
  destruct (interior_open P q J) as (r & R & H).
  assert (O : forall w Q, In (w, Q) (a ++ b) -> approaches (piece Q) (on q) 0).
  { intros w Q K. assert (CQ : convex Q). { apply (C w). apply in_app_or in K. apply in_or_app. destruct K as [K|K]; [left; exact K|right; right; exact K]. }
    apply piece_away; [exact CQ|]. exists r. split; [exact R|]. intros c X Y K'. specialize (H c X Y). apply in_app_or in K. destruct K as [K|K].
    - apply (Da Q) with c; [apply in_map_iff; exists (w, Q); auto|exact K'|exact H].
    - apply (Db Q) with c; [apply in_map_iff; exists (w, Q); auto|exact H|exact K']. }
  apply (approaches_ext (fun p => pieces (a ++ b) p + v * piece P p) _ _ (0 + v * 1)); [intros p _; rewrite !pieces_app, pieces_cons; ring|ring|].
  apply approaches_lin; [apply pieces_zero, O|apply piece_inside; [apply (C v); exact I|exact J]].
Qed.
Lemma pieces_outside l q : (forall v P, In (v, P) l -> convex P) -> (forall v P, In (v, P) l -> outside P q) -> approaches (pieces l) (on q) 0.
Proof. intros C O. apply pieces_zero. intros v P I. apply piece_away; [apply (C v P I)|]. apply outside_open, (O v P I). Qed.
Definition at_voltages (t : vtyp) (parts : electrode -> list (list p2)) (s : list electrode) : list (R * list p2) :=
  flat_map (fun e => map (fun P => (voltage t e, P)) (parts e)) s.
Lemma at_in t parts s v P : In (v, P) (at_voltages t parts s) <-> exists e, In e s /\ In P (parts e) /\ v = voltage t e.
Proof.
  unfold at_voltages. rewrite in_flat_map. split.
  - intros (e & I & J). apply in_map_iff in J. destruct J as (Q & [= <- <-] & J). exists e. auto.
  - intros (e & I & J & ->). exists e. split; [exact I|]. apply in_map_iff. exists P. auto.
Qed.
Lemma at_snd t parts s : map snd (at_voltages t parts s) = flat_map parts s.
Proof. unfold at_voltages. induction s as [|e s IH]; [reflexivity|]. cbn [flat_map]. rewrite map_app, IH, map_map. cbn [snd]. rewrite map_id. reflexivity. Qed.
Lemma tiled_pieces paths parts h p : tiled paths parts -> 0 < pz p -> value (EPolygon paths 0 h) 0 0 p = sum_over parts (fun P => piece P p).
Proof.
  intros T Z. rewrite (tiled_value paths parts) by exact T. destruct p as [x y z]. cbn [pz] in Z. destruct T as (_ & _ & C & _).
  assert (N : ~ In [] parts) by (intros I; apply (cv_ne [] (C [] I)); reflexivity). rewrite polygon_turn by assumption.
  assert (E : forall P, In P parts -> piece P (P3 x y z) = turn z (rel x y P) / (2 * PI)).
  { intros P HP. unfold piece. rewrite polygon_turn; [|exact Z|intros [H|[]]; apply (cv_ne P (C P HP) H)]. unfold sum_over. cbn [map sumR]. rewrite Rplus_0_r. reflexivity. }
  unfold Rdiv. rewrite Rmult_comm. rewrite sum_scal'. apply ProofMax3.sum_ext. intros P HP. rewrite E by exact HP. unfold Rdiv. ring.
Qed.
Lemma on_values t parts s : (forall e P, In e s -> In P (parts e) -> convex P) -> ForallOrdPairs disjoint (flat_map parts s) ->
  on_plane_values approaches s parts t (pieces (at_voltages t parts s)).
Proof.
  intros C D. assert (C' : forall v P, In (v, P) (at_voltages t parts s) -> convex P) by (intros v P I; apply at_in in I; destruct I as (e & I & J & _); apply (C e P I J)). split.
  - intros e P q He HP I. apply (pieces_inside _ _ P); [exact C'|rewrite at_snd; exact D|apply at_in; exists e; auto|exact I].
  - intros q O. apply pieces_outside; [exact C'|]. intros v P I. apply at_in in I. destruct I as (e & I & J & _). apply (O e P I J).
Qed.
Lemma values_ext (lim : (p3 -> R) -> p3 -> R -> Prop) s parts t u v : (forall q l, lim u q l -> lim v q l) -> on_plane_values lim s parts t u -> on_plane_values lim s parts t v.
Proof. intros E [A B]. split; [intros e P q He HP I; apply E, (A e P); assumption|intros q O; apply E, B, O]. Qed.
Lemma sum_at t parts s p : pieces (at_voltages t parts s) p = sum_over s (fun e => voltage t e * sum_over (parts e) (fun P => piece P p)).
Proof.
  unfold at_voltages. induction s as [|e s IH]; [reflexivity|]. cbn [flat_map]. rewrite pieces_app, IH.
  transitivity (voltage t e * sum_over (parts e) (fun P => piece P p) + sum_over s (fun e => voltage t e * sum_over (parts e) (fun P => piece P p))); [|reflexivity]. f_equal.
  rewrite sum_scal'. unfold pieces, sum_over. rewrite map_map. reflexivity.
Qed.
Lemma voltage_of t e : voltage t e = volt_of t e.
Proof. destruct t; reflexivity. Qed.

(** ** the system without a cover *)
Lemma plain_entry s parts t p : tiled_system s parts -> 0 < pz p -> tensor_entry s t 0 [] p = pieces (at_voltages t parts s) p.
Proof.
  intros (G & _) Z. assert (W : forall e, In e s -> well_formed (egeom e)) by (intros e He; destruct (G e He) as (paths & h & -> & (N & _)); exact N).
  rewrite low_entry; [|exact W|left; auto]. rewrite sum_at. unfold sys_term. apply ProofMax3.sum_ext. intros e He. rewrite voltage_of. f_equal. cbn [hd].
  destruct (G e He) as (paths & h & E & T). rewrite <- value_unit by (apply W, He). rewrite E. apply tiled_pieces; assumption.
Qed.
Lemma tiled_convex s parts : tiled_system s parts -> forall e P, In e s -> In P (parts e) -> convex P.
Proof. intros (G & _) e P He HP. destruct (G e He) as (paths & h & _ & (_ & _ & C & _)). apply C, HP. Qed.
Lemma plain_solves s parts t : tiled_system s parts -> potential_above s parts t (tensor_entry s t 0 []).
Proof.
  intros T. pose proof (tiled_convex s parts T) as C.
  assert (C' : forall v P, In (v, P) (at_voltages t parts s) -> convex P) by (intros v P I; apply at_in in I; destruct I as (e & I & J & _); apply (C e P I J)).
  assert (E : forall p, 0 < pz p -> pieces (at_voltages t parts s) p = tensor_entry s t 0 [] p) by (intros p P; symmetry; apply plain_entry; assumption).
  split; [|split].
  - intros p P. split.
    + apply smooth_harmonic; [|lia|split; [reflexivity|constructor]]. intros e He. destruct (proj1 T e He) as (paths & h & -> & (N & _)). cbn [smooth]. split; [exact N|].
      cbn [off_electrode]. intros k K. change (images 0) with [0%Z] in K. destruct K as [<-|[]]. rewrite image0. lra.
    + apply (approaches_ext (pieces (at_voltages t parts s)) _ _ (pieces (at_voltages t parts s) p)); [exact E|apply E, P|apply pieces_cont; assumption].
  - exists (sum_over (at_voltages t parts s) (fun vP => Rabs (fst vP))). intros p P. rewrite <- E by exact P. apply pieces_bound; assumption.
  - apply (values_ext _ _ _ _ (pieces (at_voltages t parts s))); [intros q l; apply approaches_ext; [exact E|reflexivity]|apply on_values; [exact C|exact (proj2 T)]].
Qed.
Lemma plain_unique s parts t u v p : tiled_system s parts -> potential_above s parts t u -> potential_above s parts t v -> 0 < pz p -> u p = v p.
Proof. intros T U V P. apply Rle_antisym; apply (above_le s parts t); try assumption; apply (tiled_convex s parts T). Qed.
Lemma plain_result s parts t u p : tiled_system s parts -> potential_above s parts t u -> 0 < pz p -> electrical_potential s [p] 0 t = Ok [[u p]].
Proof.
  intros T U P. assert (W : forall e, In e s -> well_formed (egeom e)) by (intros e He; destruct (proj1 T e He) as (paths & h & -> & (N & _)); exact N).
  rewrite (electrical_one s t 0 p W). unfold tab. cbn [seq map Nat.mul Nat.add]. f_equal. f_equal. f_equal.
  rewrite (plain_unique s parts t u (tensor_entry s t 0 []) p T U (plain_solves s parts t T) P). rewrite low_entry; [reflexivity|exact W|left; auto].
Qed.

(** ** the system below a cover *)
Lemma covered_convex h area s parts : covered_system h area s parts -> forall e P, In e s -> In P (parts e) -> convex P.
Proof. intros (_ & G & _) e P He HP. destruct (G e He) as [(paths & n & h' & _ & (_ & _ & C & _))|[_ E]]; [apply C, HP|rewrite E in HP; destruct HP]. Qed.
Lemma cover_entry_sum h area s parts t p : 0 < h -> covered_system h area s parts -> 0 < pz p ->
  tensor_entry (with_images 0 h s) t 0 [] p = pieces (at_voltages t parts s) p + cover_voltage t s * (pz p / h).
Proof.
  intros Hh (B & G & _) Z. rewrite (system_entry h area) by (try exact B; left; auto). rewrite sum_at. unfold cover_voltage.
  assert (E : forall e, In e s -> voltage t e * covered_entry (egeom e) 0 h 0 [] p =
    voltage t e * sum_over (parts e) (fun P => piece P p) + (match egeom e with ECover _ => voltage t e | _ => 0 end) * (pz p / h)).
  { intros e He. destruct (G e He) as [(paths & n & h' & E & T)|[E E']].
    - destruct (B e He) as [F|[E' _]]; [|rewrite E in E'; discriminate]. rewrite (entry_0 _ _ _ _ _ F). unfold covered. rewrite E. cbn [with_cover]. change (Z.of_nat 0) with 0%Z. rewrite (tiled_pieces paths (parts e)) by assumption. ring.
    - rewrite E, E', cover_entry. unfold sum_over. cbn. ring. }
  clear B G. induction s as [|e s IH]; [unfold sum_over; cbn; ring|]. unfold sum_over in *. cbn [map sumR]. rewrite IH by (intros e' He'; apply E; right; exact He').
  rewrite E by (left; reflexivity). ring.
Qed.
Lemma under_solves h area s parts t u : 0 < h -> covered_system h area s parts ->
  between h (tensor_entry (with_images 0 h s) t 0 []) (cover_voltage t s) u -> potential_under h s parts t u.
Proof.
  intros Hh CS (U1 & U2 & U3 & B & U4). pose proof (covered_convex h area s parts CS) as C. set (l := at_voltages t parts s). set (phi := tensor_entry (with_images 0 h s) t 0 []) in *.
  assert (C' : forall v P, In (v, P) l -> convex P) by (intros v P I; apply at_in in I; destruct I as (e & I & J & _); apply (C e P I J)).
  assert (E : forall p, 0 < pz p -> phi p = pieces l p + cover_voltage t s / h * pz p) by (intros p P; unfold phi; rewrite (cover_entry_sum h area s parts t p Hh CS P); unfold l; field; lra).
  assert (LIM : forall q a, approaches (pieces l) (on q) a -> tends h u (on q) a).
  { intros q a A. assert (X : tends h (fun r => pieces l r + cover_voltage t s / h * pz r) (on q) (a + cover_voltage t s / h * 0)) by (apply tends_lin; [apply approaches_tends, A|apply (cont_tends h pz (on q)), cont_pz]).
    pose proof (U2 (on q) eq_refl) as Y. pose proof (tends_lin h _ _ _ _ _ 1 X Y) as Z. intros eps Ep. destruct (Z eps Ep) as (d & D0 & D). exists d. split; [exact D0|].
    intros r R c1 c2 c3. specialize (D r R c1 c2 c3). rewrite E in D by lra. match type of D with Rabs ?x < _ => replace (u r - a) with x by ring end. exact D. }
  split; [exact U1|]. split; [|split; [|exact U3]].
  - exists (B + (sum_over l (fun vP => Rabs (fst vP)) + Rabs (cover_voltage t s))). intros p P. specialize (U4 p P).
    assert (F : Rabs (phi p) <= sum_over l (fun vP => Rabs (fst vP)) + Rabs (cover_voltage t s)).
    { rewrite E by lra. eapply Rle_trans; [apply Rabs_triang|]. apply Rplus_le_compat; [apply pieces_bound; [exact C'|lra]|].
      replace (cover_voltage t s / h * pz p) with (cover_voltage t s * (pz p / h)) by (field; lra). rewrite Rabs_mult. rewrite <- (Rmult_1_r (Rabs (cover_voltage t s))) at 2. apply Rmult_le_compat_l; [apply Rabs_pos|].
      assert (0 <= pz p / h <= 1). { split; [unfold Rdiv; apply Rmult_le_pos; [lra|left; apply Rinv_0_lt_compat, Hh]|]. apply Rmult_le_reg_r with h; [exact Hh|]. unfold Rdiv. rewrite Rmult_assoc, Rinv_l by lra. lra. }
      rewrite Rabs_right by lra. lra. }
    replace (u p) with ((u p - phi p) + phi p) by ring. eapply Rle_trans; [apply Rabs_triang|]. lra.
  - destruct (on_values t parts s C (proj2 (proj2 CS))) as [A O]. split; [intros e P q He HP I; apply LIM, (A e P); assumption|intros q Q; apply LIM, O, Q].
Qed.
Lemma under_unique h area s parts t u v p : 0 < h -> covered_system h area s parts -> potential_under h s parts t u -> potential_under h s parts t v -> 0 < pz p < h -> u p = v p.
Proof. intros Hh CS U V P. apply Rle_antisym; apply (under_le h s parts t); try assumption; apply (covered_convex h area s parts CS). Qed.
Lemma under_exists h area s parts t : 0 < h -> covered_system h area s parts -> exists u, potential_under h s parts t u.
Proof. intros Hh CS. destruct (system_exists h area s t Hh (proj1 CS)) as (u & U). exists u. apply (under_solves h area); assumption. Qed.
Lemma under_error h area s parts t u p n : 0 < h -> covered_system h area s parts -> potential_under h s parts t u -> 0 < pz p < h -> (1 <= n)%nat ->
  Rabs (tensor_entry (with_images n h s) t 0 [] p - u p) <= sum_over s (fun e => Rabs (voltage t e) * area e) * pz p / (8 * PI * h ^ 3 * INR n ^ 2).
Proof.
  intros Hh CS U P N. destruct (system_exists h area s t Hh (proj1 CS)) as (v & V).
  rewrite (under_unique h area s parts t u v p Hh CS U (under_solves h area s parts t v Hh CS V) P). apply (system_error h area s t v p n Hh (proj1 CS) V P N).
Qed.
Lemma partial_near f g k p l d : 0 < d -> (forall q, Rabs (pz q - pz p) < d -> f q = g q) -> (k < 3)%nat -> partial f k p l -> partial g k p l.
Proof.
  intros D0 E K D. assert (A : forall r : R, Rabs r < d -> Rabs (pz (move k r p) - pz p) < d).
  { intros r T. destruct p as [x y z]. destruct k as [|[|k]]; cbn [move pz]; [rewrite Rminus_eq_0, Rabs_R0; exact D0|rewrite Rminus_eq_0, Rabs_R0; exact D0|replace (z + r - z) with r by ring; exact T]. }
  apply (is_derive_ext_loc (fun r => f (move k r p))); [|exact D]. exists (mkposreal _ D0). intros r Hr. apply E, A.
  unfold ball in Hr; cbn in Hr; unfold AbsRing_ball, minus, plus, opp, abs in Hr; cbn in Hr; rewrite Ropp_0, Rplus_0_r in Hr; exact Hr.
Qed.
Lemma plain_field s parts t u p k : tiled_system s parts -> potential_above s parts t u -> 0 < pz p -> (k < 3)%nat -> partial u k p (tensor_entry s t 1 [k] p).
Proof.
  intros T U P K. apply (partial_near (tensor_entry s t 0 []) _ _ _ _ (pz p) P); [|exact K|].
  - intros q Q. apply Rabs_def2 in Q. symmetry. apply (plain_unique s parts t); [exact T|exact U|apply plain_solves, T|lra].
  - refine (proj2 (proj2 (ProofPoly.smooth_derivatives s t 0 p [] k _ _ K _))); [|lia|split; [reflexivity|constructor]]. intros e He. destruct (proj1 T e He) as (paths & h & -> & (N & _)). cbn [smooth]. split; [exact N|].
    cbn [off_electrode]. intros j J. change (images 0) with [0%Z] in J. destruct J as [<-|[]]. rewrite image0. lra.
Qed.
Lemma under_field h area s parts t u p k : 0 < h -> covered_system h area s parts -> potential_under h s parts t u -> 0 < pz p < h -> (k < 3)%nat ->
  exists l : R, partial u k p l /\ is_lim_seq (fun n => tensor_entry (with_images n h s) t 1 [k] p) l.
Proof.
  intros Hh CS U P K. destruct (system_exists h area s t Hh (proj1 CS)) as (v & V). destruct (system_field h area s t v p k Hh (proj1 CS) V P K) as (l & D & L).
  exists l. split; [|exact L]. assert (M : 0 < Rmin (pz p) (h - pz p)) by (apply Rmin_glb_lt; lra). apply (partial_near v _ _ _ _ _ M); [|exact K|exact D].
  pose proof (Rmin_l (pz p) (h - pz p)). pose proof (Rmin_r (pz p) (h - pz p)). intros q Q. apply Rabs_def2 in Q.
  apply (under_unique h area s parts t); [exact Hh|exact CS|apply (under_solves h area); assumption|exact U|lra].
Qed.
