(** Proof of C185. *)
From Coquelicot Require Import Coquelicot.
From Verif Require Import Base ModelExpr ModelUtils ModelField ModelGeom SpecTensor SpecField SpecPoly SpecBound SpecMax SpecCentre SpecTile SpecEarnshaw SpecCover SpecDirichlet SpecCompare ProofField ProofDeriv ProofSys ProofPoly ProofPoly2 ProofBound ProofMax2 ProofMax3 ProofMax6 ProofCentre ProofOrient ProofEarnshaw ProofCover ProofCover2 ProofCover3 ProofCover4 ProofDirichlet ProofDirichlet2.
Import ListNotations.
Open Scope R_scope.
Notation length := List.length.

(** ** comparison with values on the plane that are not positive *)
Lemma above_lines_le w B ls : (forall l, In l ls -> unit_line l) ->
  (forall p, 0 < pz p -> harmonic_at w p /\ approaches w p (w p)) ->
  (forall p, pz p = 0 -> (forall l, In l ls -> line l p <> 0) -> exists a, a <= 0 /\ approaches w p a) ->
  (forall p, 0 < pz p -> w p <= B) -> forall p, 0 < pz p -> w p <= 0.
Proof.
  intros U IN B0 UB. assert (B' : exists C, 0 <= C /\ forall p, 0 < pz p -> w p <= C).
  { exists (Rmax 0 B). split; [apply Rmax_l|]. intros p P. eapply Rle_trans; [apply UB, P|apply Rmax_r]. }
  clear B UB. destruct B' as (B & Bp & UB).
  assert (KEY : forall h p, 0 < pz p < h -> w p <= B / h * pz p).
  { intros h p P. assert (Hh : 0 < h) by lra. assert (K0 : 0 <= B / h) by (unfold Rdiv; apply Rmult_le_pos; [exact Bp|left; apply Rinv_0_lt_compat, Hh]).
    enough ((fun q => w q + - (B / h) * pz q) p <= 0) by (cbn beta in *; lra).
    apply (slab_lines (fun q => w q + - (B / h) * pz q) h B ls Hh U); [| | | |exact P].
    - intros q Q. destruct (IN q (proj1 Q)) as [A T]. split.
      + apply harmonic_lin; [exact A|]. apply (harmonic_ext (quad 0 0 1 0)); [intros r; unfold quad; ring|apply quad_harmonic].
      + apply tends_lin; [apply approaches_tends, T|apply cont_tends, cont_pz].
    - intros q Q L eps E. destruct (B0 q Q L) as (a & Ha & T). destruct (T eps E) as (d & D0 & D). exists d. split; [exact D0|]. intros r R (c1 & c2 & c3). specialize (D r (proj1 R) c1 c2 c3).
      apply Rabs_def2 in D. pose proof (Rmult_le_pos _ _ K0 (Rlt_le _ _ (proj1 R))). lra.
    - intros q Q eps E. destruct (IN q ltac:(lra)) as [_ T]. pose proof (UB q ltac:(lra)) as u.
      assert (T2 : tends h (fun q => w q + - (B / h) * pz q) q (w q + - (B / h) * pz q)) by (apply tends_lin; [apply approaches_tends, T|apply cont_tends, cont_pz]).
      destruct (T2 eps E) as (d & D0 & D). exists d. split; [exact D0|]. intros r R (c1 & c2 & c3). specialize (D r R c1 c2 c3). apply Rabs_def2 in D.
      rewrite Q in D. replace (B / h * h) with B in D by (field; lra). replace (- (B / h) * h) with (- B) in D by (field; lra). lra.
    - intros q Q. specialize (UB q (proj1 Q)). pose proof (Rmult_le_pos _ _ K0 (Rlt_le _ _ (proj1 Q))). lra. }
  intros p P. destruct (Rle_or_lt (w p) 0) as [|L]; [assumption|]. exfalso.
  set (h := pz p + 2 * B * pz p / w p + 1). assert (F : 0 <= 2 * B * pz p / w p) by (unfold Rdiv; apply Rmult_le_pos; [apply Rmult_le_pos; lra|left; apply Rinv_0_lt_compat, L]).
  specialize (KEY h p ltac:(unfold h; lra)). assert (Hh : 0 < h) by (unfold h; lra).
  assert (w p * h <= B * pz p) by (apply (Rmult_le_compat_r h) in KEY; [|lra]; replace (B / h * pz p * h) with (B * pz p) in KEY by (field; lra); exact KEY).
  assert (w p * (2 * B * pz p / w p) <= w p * h) by (apply Rmult_le_compat_l; unfold h; lra).
  replace (w p * (2 * B * pz p / w p)) with (2 * B * pz p) in * by (field; lra).
  assert (0 < w p * h) by (apply Rmult_lt_0_compat; assumption). lra.
Qed.
Lemma approaches_unique f q a b : approaches f (on q) a -> approaches f (on q) b -> a = b.
Proof.
  intros A B. destruct (Req_dec a b) as [|N]; [assumption|exfalso].
  assert (E : 0 < Rabs (a - b) / 2) by (apply Rmult_lt_0_compat; [apply Rabs_pos_lt; lra|lra]).
  destruct (A _ E) as (d & D0 & D). destruct (B _ E) as (d' & D0' & D').
  set (z := Rmin d d' / 2). assert (Z : 0 < z < d /\ z < d') by (unfold z; pose proof (Rmin_l d d'); pose proof (Rmin_r d d'); pose proof (Rmin_glb_lt d d' 0 D0 D0'); lra). clearbody z.
  assert (X : forall x, Rabs (x - x) = 0) by (intros x; replace (x - x) with 0 by ring; apply Rabs_R0).
  assert (Y : Rabs (z - 0) = z) by (rewrite Rminus_0_r; apply Rabs_pos_eq; lra).
  specialize (D (P3 (fst q) (snd q) z)). specialize (D' (P3 (fst q) (snd q) z)). cbn [on px py pz] in D, D'. rewrite !X, Y in D, D'.
  specialize (D ltac:(lra) ltac:(lra) ltac:(lra) ltac:(lra)). specialize (D' ltac:(lra) ltac:(lra) ltac:(lra) ltac:(lra)).
  pose proof (Rabs_triang (a - f (P3 (fst q) (snd q) z)) (f (P3 (fst q) (snd q) z) - b)) as T.
  replace (a - f (P3 (fst q) (snd q) z) + (f (P3 (fst q) (snd q) z) - b)) with (a - b) in T by ring. rewrite (Rabs_minus_sym a (f (P3 (fst q) (snd q) z))) in T. lra.
Qed.
Lemma plane_limit s parts t u q v : potential_above s parts t u -> plane_voltage s parts t q v -> approaches u (on q) v.
Proof. intros (_ & _ & I & O) [(e & P & He & HP & J & ->)|[H ->]]; [apply (I e P); assumption|apply O, H]. Qed.
Lemma plane_one s parts t q v v' : tiled_system s parts -> plane_voltage s parts t q v -> plane_voltage s parts t q v' -> v = v'.
Proof. intros T A B. pose proof (plain_solves s parts t T) as U. apply (approaches_unique (tensor_entry s t 0 []) q); apply (plane_limit s parts t); assumption. Qed.
Lemma plane_some s parts t p : (forall e P, In e s -> In P (parts e) -> convex P) -> (forall l, In l (all_lines (flat_map parts s)) -> line l p <> 0) ->
  exists v, plane_voltage s parts t (px p, py p) v.
Proof.
  intros C L. assert (CC : forall Q, In Q (flat_map parts s) -> convex Q) by (intros Q HQ; apply in_flat_map in HQ; destruct HQ as (e & He & HQ); exact (C e Q He HQ)).
  destruct (off_cases _ p CC L) as [(P & I & J)|O].
  - apply in_flat_map in I. destruct I as (e & He & I). exists (voltage t e). left. exists e, P. auto.
  - exists 0. right. split; [|reflexivity]. intros e P He HP. apply O, in_flat_map. exists e. auto.
Qed.
Lemma lines_app A B l : In l (all_lines (A ++ B)) <-> In l (all_lines A) \/ In l (all_lines B).
Proof. unfold all_lines. rewrite flat_map_app, map_app. apply in_app_iff. Qed.

Definition alone (T : list p2) : list electrode := [Electrode "alone" 1 0 (EPolygon [T] 0 0)].
Lemma alone_tiled T : convex T -> tiled_system (alone T) (fun _ => [T]).
Proof.
  intros C. split.
  - intros e [<-|[]]. exists [T], 0. split; [reflexivity|apply convex_tiled, C].
  - cbn. repeat constructor.
Qed.
Lemma alone_pos T p : convex T -> 0 < pz p -> 0 < tensor_entry (alone T) TDc 0 [] p.
Proof.
  intros C Z. rewrite (plain_entry _ _ _ _ (alone_tiled T C) Z). unfold at_voltages, alone. cbn [flat_map map app]. unfold pieces, sum_over. cbn [map sumR fst snd].
  pose proof (piece_01 T p C Z). unfold voltage. cbn. lra.
Qed.
Lemma bump s parts t s' parts' t' T c : tiled_system s parts -> tiled_system s' parts' -> convex T -> nowhere_above s parts t s' parts' t' ->
  (forall q a b, interior T q -> plane_voltage s parts t q a -> plane_voltage s' parts' t' q b -> a + c <= b) ->
  forall p, 0 < pz p -> tensor_entry s t 0 [] p + c * tensor_entry (alone T) TDc 0 [] p <= tensor_entry s' t' 0 [] p.
Proof.
  intros S S' CT N K p Z. pose proof (plain_solves s parts t S) as U. pose proof (plain_solves s' parts' t' S') as V. pose proof (plain_solves _ _ TDc (alone_tiled T CT)) as G.
  set (u := tensor_entry s t 0 []) in *. set (v := tensor_entry s' t' 0 []) in *. set (g := tensor_entry (alone T) TDc 0 []) in *.
  enough ((fun q => (u q + c * g q) + -1 * v q) p <= 0) by (cbn beta in *; lra).
  pose proof (tiled_convex s parts S) as C. pose proof (tiled_convex s' parts' S') as C'.
  destruct (proj1 (proj2 U)) as (BU & U2). destruct (proj1 (proj2 V)) as (BV & V2). destruct (proj1 (proj2 G)) as (BG & G2).
  apply (above_lines_le (fun q => (u q + c * g q) + -1 * v q) (BU + Rabs c * BG + BV) (all_lines ((flat_map parts s ++ flat_map parts' s') ++ [T]))); [| | | |exact Z].
  - apply all_unit. intros P HP. apply in_app_or in HP. destruct HP as [HP|[<-|[]]]; [|exact CT]. apply in_app_or in HP.
    destruct HP as [HP|HP]; apply in_flat_map in HP; destruct HP as (e & He & HP); [exact (C e P He HP)|exact (C' e P He HP)].
  - intros q Q. destruct (proj1 U q Q). destruct (proj1 V q Q). destruct (proj1 G q Q).
    split; [apply harmonic_lin; [apply harmonic_lin|]; assumption|apply approaches_lin; [apply approaches_lin|]; assumption].
  - intros q Q L. rewrite <- (on_xy q Q).
    destruct (plane_some s parts t q C) as (a & A); [intros l I; apply L, lines_app; left; apply lines_app; left; exact I|].
    destruct (plane_some s' parts' t' q C') as (b & B); [intros l I; apply L, lines_app; left; apply lines_app; right; exact I|].
    destruct (off_cases [T] q) as [(P & [<-|[]] & J)|O]; [intros P [<-|[]]; exact CT|intros l I; apply L, lines_app; right; exact I| |].
    + exists ((a + c * 1) + -1 * b). split; [specialize (K _ a b J A B); lra|]. apply approaches_lin; [apply approaches_lin|].
      * apply (plane_limit s parts t); assumption.
      * apply (plane_limit (alone T) (fun _ => [T]) TDc); [exact G|]. left. eexists. exists T. split; [left; reflexivity|]. split; [left; reflexivity|]. split; [exact J|reflexivity].
      * apply (plane_limit s' parts' t'); assumption.
    + exists ((a + c * 0) + -1 * b). split; [specialize (N _ a b A B); lra|]. apply approaches_lin; [apply approaches_lin|].
      * apply (plane_limit s parts t); assumption.
      * apply (plane_limit (alone T) (fun _ => [T]) TDc); [exact G|]. right. split; [|reflexivity]. intros e P _ [<-|[]]. apply O. left. reflexivity.
      * apply (plane_limit s' parts' t'); assumption.
  - intros q Q. specialize (U2 q Q). specialize (V2 q Q). specialize (G2 q Q). pose proof (Rle_abs (u q)). pose proof (Rle_abs (- v q)) as X. rewrite Rabs_Ropp in X.
    pose proof (Rle_abs (c * g q)) as Y. rewrite Rabs_mult in Y. pose proof (Rmult_le_compat_l (Rabs c) _ _ (Rabs_pos c) G2). lra.
Qed.
Lemma unit_tri : convex (tri (0, 0) 1). Proof. apply tri_convex. lra. Qed.
Lemma entry_le s parts t s' parts' t' : tiled_system s parts -> tiled_system s' parts' -> nowhere_above s parts t s' parts' t' ->
  forall p, 0 < pz p -> tensor_entry s t 0 [] p <= tensor_entry s' t' 0 [] p.
Proof.
  intros S S' N p Z. pose proof (bump s parts t s' parts' t' (tri (0, 0) 1) 0 S S' unit_tri N) as B.
  specialize (B ltac:(intros q a b _ A A'; specialize (N q a b A A'); lra) p Z). lra.
Qed.

(** ** the voltage is the same near a point *)
Lemma near_outside Ps q : (forall P, In P Ps -> outside P q) -> exists r, 0 < r /\ forall c, Rabs (fst c - fst q) < r -> Rabs (snd c - snd q) < r -> forall P, In P Ps -> ~ interior P c.
Proof.
  induction Ps as [|P Ps IH]; intros O; [exists 1; split; [lra|intros c _ _ P []]|].
  destruct (outside_open P q (O P (or_introl eq_refl))) as (r & R & H). destruct IH as (r' & R' & H'); [intros Q HQ; apply O; right; exact HQ|].
  exists (Rmin r r'). split; [apply Rmin_glb_lt; assumption|]. intros c X Y Q [<-|HQ].
  - apply H; [exact (Rlt_le_trans _ _ _ X (Rmin_l _ _))|exact (Rlt_le_trans _ _ _ Y (Rmin_l _ _))].
  - apply H'; [exact (Rlt_le_trans _ _ _ X (Rmin_r _ _))|exact (Rlt_le_trans _ _ _ Y (Rmin_r _ _))|exact HQ].
Qed.
Lemma plane_near s parts t q v : tiled_system s parts -> plane_voltage s parts t q v ->
  exists r, 0 < r /\ forall c a, Rabs (fst c - fst q) < r -> Rabs (snd c - snd q) < r -> plane_voltage s parts t c a -> a = v.
Proof.
  intros T [(e & P & He & HP & J & ->)|[O ->]].
  - destruct (interior_open P q J) as (r & R & H). exists r. split; [exact R|]. intros c a X Y A. apply (plane_one s parts t c a (voltage t e) T A).
    left. exists e, P. auto.
  - destruct (near_outside (flat_map parts s) q) as (r & R & H).
    { intros P HP. apply in_flat_map in HP. destruct HP as (e & He & HP). exact (O e P He HP). }
    exists r. split; [exact R|]. intros c a X Y [(e & P & He & HP & J & _)|[_ ->]]; [|reflexivity]. exfalso. apply (H c X Y P); [apply in_flat_map; exists e; auto|exact J].
Qed.
Lemma entry_lt s parts t s' parts' t' : tiled_system s parts -> tiled_system s' parts' -> nowhere_above s parts t s' parts' t' -> somewhere_below s parts t s' parts' t' ->
  forall p, 0 < pz p -> tensor_entry s t 0 [] p < tensor_entry s' t' 0 [] p.
Proof.
  intros S S' N (q & v & v' & A & A' & L) p Z.
  destruct (plane_near s parts t q v S A) as (r & R & H). destruct (plane_near s' parts' t' q v' S' A') as (r' & R' & H').
  set (d := Rmin r r' / 2). assert (D : 0 < d /\ 2 * d <= r /\ 2 * d <= r') by (unfold d; pose proof (Rmin_l r r'); pose proof (Rmin_r r r'); pose proof (Rmin_glb_lt r r' 0 R R'); lra).
  pose proof (tri_convex q d (proj1 D)) as CT.
  pose proof (bump s parts t s' parts' t' (tri q d) (v' - v) S S' CT N) as B.
  specialize (B ltac:(intros c a b J X Y; destruct (tri_near q d c (proj1 D) J) as [J1 J2]; rewrite (H c a ltac:(lra) ltac:(lra) X), (H' c b ltac:(lra) ltac:(lra) Y); lra) p Z).
  pose proof (alone_pos (tri q d) p CT Z) as G. pose proof (Rmult_lt_0_compat (v' - v) _ ltac:(lra) G). lra.
Qed.
Lemma entry_result s parts t p : tiled_system s parts -> 0 < pz p -> electrical_potential s [p] 0 t = Ok [[tensor_entry s t 0 [] p]].
Proof. intros T Z. apply (plain_result s parts t); [exact T|apply plain_solves, T|exact Z]. Qed.
Lemma monotone s parts t s' parts' t' p : tiled_system s parts -> tiled_system s' parts' -> nowhere_above s parts t s' parts' t' -> 0 < pz p ->
  exists v v', electrical_potential s [p] 0 t = Ok [[v]] /\ electrical_potential s' [p] 0 t' = Ok [[v']] /\ v <= v' /\
  (somewhere_below s parts t s' parts' t' -> v < v').
Proof.
  intros S S' N Z. exists (tensor_entry s t 0 [] p), (tensor_entry s' t' 0 [] p). split; [apply (entry_result s parts); assumption|]. split; [apply (entry_result s' parts'); assumption|].
  split; [apply (entry_le s parts t s' parts'); assumption|]. intros B. apply (entry_lt s parts t s' parts'); assumption.
Qed.
Lemma same_results s parts t s' parts' t' : tiled_system s parts -> tiled_system s' parts' ->
  (same_plane s parts t s' parts' t' <-> forall p, 0 < pz p -> electrical_potential s [p] 0 t = electrical_potential s' [p] 0 t').
Proof.
  intros S S'. split.
  - intros E p Z. rewrite (entry_result s parts t p S Z), (entry_result s' parts' t' p S' Z). do 3 f_equal.
    apply Rle_antisym; [apply (entry_le s parts t s' parts')|apply (entry_le s' parts' t' s parts)]; try assumption.
    + intros q v v' A B. right. exact (E q v v' A B).
    + intros q v v' A B. right. symmetry. exact (E q v' v B A).
  - intros E q v v' A B. apply (approaches_unique (tensor_entry s t 0 []) q); [apply (plane_limit s parts t); [apply plain_solves, S|exact A]|].
    apply (approaches_ext (tensor_entry s' t' 0 []) _ _ v'); [|reflexivity|apply (plane_limit s' parts' t'); [apply plain_solves, S'|exact B]].
    intros p Z. specialize (E p Z). rewrite (entry_result s parts t p S Z), (entry_result s' parts' t' p S' Z) in E. injection E as ->. reflexivity.
Qed.

(** ** raising voltages *)
Lemma raised_entry t t' p s s' : (forall e, In e s -> exists paths h parts, egeom e = EPolygon paths 0 h /\ tiled paths parts) -> 0 < pz p -> raised t t' s s' ->
  sum_over s (fun e => voltage t e * value (egeom e) 0 0 p) <= sum_over s' (fun e => voltage t' e * value (egeom e) 0 0 p) /\
  (Exists (fun ee => voltage t (fst ee) < voltage t' (snd ee)) (combine s s') ->
   sum_over s (fun e => voltage t e * value (egeom e) 0 0 p) < sum_over s' (fun e => voltage t' e * value (egeom e) 0 0 p)).
Proof.
  intros G Z F. induction F as [|e e' s s' [E L] F IH].
  - split; [apply Rle_refl|]. intros X. inversion X.
  - destruct (G e (or_introl eq_refl)) as (paths & h & parts & Eg & T). destruct IH as [IH IH']; [intros a Ha; apply G; right; exact Ha|].
    assert (V : 0 < value (egeom e) 0 0 p) by (rewrite Eg; destruct p as [x y z]; exact (proj1 (tiled_between paths parts h x y z T Z))).
    unfold sum_over in *. cbn [map sumR]. rewrite <- E. pose proof (Rmult_le_compat_r _ _ _ (Rlt_le _ _ V) L) as M. split; [lra|].
    intros X. cbn [combine] in X. inversion X as [? ? Y|? ? Y]; subst.
    + cbn [fst snd] in Y. pose proof (Rmult_lt_compat_r _ _ _ V Y). lra.
    + specialize (IH' Y). lra.
Qed.
Lemma system_sum s t p : (forall e, In e s -> exists paths h parts, egeom e = EPolygon paths 0 h /\ tiled paths parts) ->
  electrical_potential s [p] 0 t = Ok [[sum_over s (fun e => voltage t e * value (egeom e) 0 0 p)]].
Proof.
  intros G. assert (W : forall e, In e s -> well_formed (egeom e)) by (intros e He; destruct (G e He) as (paths & h & parts & -> & (N & _)); exact N).
  rewrite (electrical_one s t 0 p W). unfold tab. cbn [seq map Nat.mul Nat.add]. f_equal. f_equal. f_equal.
  unfold sys_term. apply ProofMax3.sum_ext. intros e He. rewrite voltage_of. f_equal. symmetry. apply value_unit, W, He.
Qed.
Lemma raised_result s s' t t' p : (forall e, In e s -> exists paths h parts, egeom e = EPolygon paths 0 h /\ tiled paths parts) -> 0 < pz p -> raised t t' s s' ->
  exists v v', electrical_potential s [p] 0 t = Ok [[v]] /\ electrical_potential s' [p] 0 t' = Ok [[v']] /\ v <= v' /\
  (Exists (fun ee => voltage t (fst ee) < voltage t' (snd ee)) (combine s s') -> v < v').
Proof.
  intros G Z F. assert (G' : forall e, In e s' -> exists paths h parts, egeom e = EPolygon paths 0 h /\ tiled paths parts).
  { clear Z. revert G. induction F as [|e e' s s' [E L] F IH]; intros G a; [intros []|]. intros [<-|Ha].
    - destruct (G e (or_introl eq_refl)) as (paths & h & parts & Eg & T). exists paths, h, parts. rewrite <- E. auto.
    - apply IH; [intros b Hb; apply G; right; exact Hb|exact Ha]. }
  eexists. eexists. split; [apply system_sum, G|]. split; [apply system_sum, G'|]. exact (raised_entry t t' p s s' G Z F).
Qed.
